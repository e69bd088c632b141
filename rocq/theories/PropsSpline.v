(* C53-C57, C61: spline and pline (npplus/pwpoly.py:817-1048, 1378-1388).
   scipy.linalg.solve_banded and solve are parameters sb and s; assumed of them is
   only that what they return solves the system (banded_spec, dense_spec,
   PropsSolve.v) and, for the existence theorems, that they succeed on nonsingular
   systems.  gauss_meets_specs (PropsSolve.v) shows that the assumptions can be met. *)
From Coq Require Import List Arith ZArith Lia Bool Reals Lra.
From Verif Require Import Num PyBase NdArray Poly SpecPoly PolyProofs PwPoly PwBase PwDeriv PwInteg PwCtor PropsCtor RSum
  SolvePer SolveProofs Gauss PropsSolve Spline SplineProofs SplineCore SplineSolve SplineFacts.
Import ListNotations.
Local Open Scope R_scope.

(* f is on (x[q], x[q+1]] the polynomial in t - x[q] with the n+1 coefficients Q q *)
Definition on_pieces (n : nat) (x : list R) (f : R -> R) (Q : nat -> list R) : Prop :=
  forall q, (S q < length x)%nat -> length (Q q) = S n /\
    forall t, nth q x 0 < t <= nth (S q) x 0 -> f t = peval (Q q) (t - nth q x 0).
(* g lists f and its first h derivatives, the last one continuous, at the point t *)
Definition derivs_at (h : nat) (g : nat -> R -> R) (t : R) : Prop :=
  (forall k, (k < h)%nat -> derivable_pt_lim (g k) t (g (S k) t)) /\
  (forall k, (k <= h)%nat -> continuity_pt (g k) t).
(* all derivatives given in lo (orders 1, 2, ..., divided by k!) are those of c at 0, all
   given in hi those at d; component j of leading dimensions *)
Definition attains (lo hi : list (option (nd R))) (j : nat) (cf cl : list R) (d : R) : Prop :=
  (forall k b, nth k lo None = Some b -> nderiv_at (S k) (peval cf) 0 (INR (fact (S k)) * bget b [j])) /\
  (forall k b, nth k hi None = Some b -> nderiv_at (S k) (peval cl) d (INR (fact (S k)) * bget b [j])).

Lemma nth_some_error {A} (l : list (option A)) k b : nth k l None = Some b -> nth_error l k = Some (Some b).
Proof.
  intros E. rewrite <- E. apply nth_error_nth'. destruct (Nat.lt_ge_cases k (length l)); auto.
  rewrite nth_overflow in E by auto. discriminate.
Qed.
Lemma nderiv_at_peval k c t v : v = INR (fact k) * tay k c t -> nderiv_at k (peval c) t v.
Proof. intros ->. exists (fun t => INR (fact k) * tay k c t). split; [apply nderiv_tay|reflexivity]. Qed.

Section Spline.
  Variable inv : nat -> (nat -> nat -> R) -> (nat -> nat -> R).
  Variable sb : nat -> nat -> arr2 R -> arr2 R -> res (arr2 R).
  Variable s : arr2 R -> arr2 R -> res (arr2 R).
  Hypothesis Hsb : banded_spec sb.
  Hypothesis Hs : dense_spec s.

  Lemma spline_all n x y lo hi extrap p e f : (2 <= n)%nat -> incr x -> ex_pair n extrap = (e, f) ->
    spline inv sb s x y n lo hi false extrap = Ok p ->
    good_args x y n lo hi /\ exists lo' hi' cols, filled n (bc_tuple lo) (bc_tuple hi) lo' hi' /\
      spl_result n x (ysh y) e f cols p /\
      forall comp, inb comp (ysh y) -> pieces n x false (yval y comp) (cols comp) /\
        attains lo' hi' (ravel (ysh y) comp) (cols comp 0%nat) (cols comp (length x - 2)%nat) (dxs x (length x - 2)).
  Proof using Hsb.
    intros Hn Hi He E. pose proof (spline_ok_args _ _ _ _ _ _ _ _ _ _ Hn Hi E) as G. split; [exact G|].
    destruct G as (G1 & G2 & G3 & G4 & G5 & G6 & G7 & G8).
    destruct (spline_core inv sb s n x y lo hi extrap e f Hsb Hn G1 Hi G2 G3 G4 G5 G6 G7 G8 He)
      as (lo' & hi' & F & _ & _ & _ & H & _).
    destruct (H p E) as (cols & R1 & R2). exists lo', hi', cols. split; [exact F|]. split; [exact R1|].
    intros comp Hb. destruct (R2 comp Hb) as (P & B1 & B2). split; [exact P|].
    replace (length x - 1 - 1)%nat with (length x - 2)%nat in B2 by lia.
    split; intros k b Hk; apply nth_some_error in Hk; apply nderiv_at_peval; f_equal.
    - rewrite tay_at_0. symmetry. apply B1; auto.
    - symmetry. apply B2; auto.
  Qed.

  (* spline(x, y, n, lo, hi, extrap=...) for increasing x.  If it returns, then on each
     interval the result is one polynomial of degree n that takes the values y at both ends,
     so the data are interpolated at every knot (at x[0] unless extrap[0] is negative, see
     C53_extrap_minus1), and between the first and last knot the function has n-1 continuous
     derivatives. *)
  Theorem C53_spline : forall n x y lo hi extrap p e f comp,
    (2 <= n)%nat -> incr x -> ex_pair n extrap = (e, f) -> spline inv sb s x y n lo hi false extrap = Ok p ->
    inb comp (ysh y) ->
    exists F g Q, (forall t, pw_call p comp t = Ok (F t)) /\ on_pieces n x F Q /\
      (forall q, (S q < length x)%nat ->
         peval (Q q) 0 = yval y comp q /\ peval (Q q) (nth (S q) x 0 - nth q x 0) = yval y comp (S q)) /\
      (forall i, (i < length x)%nat -> (i <> 0%nat \/ 0 <= e)%Z -> F (nth i x 0) = yval y comp i) /\
      (forall t, g 0%nat t = F t) /\
      (forall t, nth 0 x 0 < t < nth (length x - 1) x 0 -> derivs_at (n - 1) g t).
  Proof using Hsb.
    intros n x y lo hi extrap p e f comp Hn Hi He E Hb.
    destruct (spline_all n x y lo hi extrap p e f Hn Hi He E) as ((Hx & _) & lo' & hi' & cols & _ & HR & H).
    destruct (H comp Hb) as (P & _). assert (Hn1 : (1 <= n)%nat) by lia.
    exists (pw_val p comp), (sg p comp), (cols comp). split; [|split; [|split; [|split; [|split]]]].
    - intros t. apply (sf_call n x (ysh y) e f cols p comp HR).
    - intros q Hq. split; [destruct (proj1 P q ltac:(lia)) as (L & _); lia|].
      intros t Ht. apply (sf_piece n x (ysh y) e f cols p comp Hn1 Hx HR Hb); auto. lia.
    - intros q Hq. destruct (proj1 P q ltac:(lia)) as (_ & P1 & P2). rewrite tay_0, Nat.add_1_r in P2.
      rewrite peval_0. split; [exact P1|exact P2].
    - intros i Hlt Hc. destruct i as [|i].
      + destruct Hc as [Hc|Hc]; [congruence|].
        pose proof (sf_knot0 n x (ysh y) e f cols p comp (yval y comp) Hn1 Hx HR Hb P) as K.
        destruct (Z.leb_spec 0 e); [exact K|lia].
      + apply (sf_knot n x (ysh y) e f cols p comp (yval y comp) Hn1 Hx HR Hb P). lia.
    - intros t. apply (sg_0 n x (ysh y) e f cols p comp HR).
    - intros t Ht. split; intros k Hk;
        destruct (sg_in n x (ysh y) e f cols p comp (yval y comp) Hn1 Hx HR Hb P k t Ht); auto.
  Qed.

  (* The boundary conditions.  lo' and hi' are lo and hi with zeros filled in for the first
     unspecified slots in the order lo[n-2], hi[n-2], lo[n-3], hi[n-3], ... until n-1 are set
     (filled, slots: SplineCore.v); every condition in lo' is the derivative of the first
     piece at x[0], every one in hi' that of the last piece at x[-1]. *)
  Theorem C54_boundary : forall n x y lo hi extrap p comp,
    (2 <= n)%nat -> incr x -> spline inv sb s x y n lo hi false extrap = Ok p -> inb comp (ysh y) ->
    exists lo' hi' F Q, filled n (bc_tuple lo) (bc_tuple hi) lo' hi' /\
      (forall t, pw_call p comp t = Ok (F t)) /\ on_pieces n x F Q /\
      attains lo' hi' (ravel (ysh y) comp) (Q 0%nat) (Q (length x - 2)%nat)
              (nth (length x - 1) x 0 - nth (length x - 2) x 0).
  Proof using Hsb.
    intros n x y lo hi extrap p comp Hn Hi E Hb. destruct (ex_pair n extrap) as [e f] eqn:He.
    destruct (spline_all n x y lo hi extrap p e f Hn Hi He E) as ((Hx & _) & lo' & hi' & cols & HF & HR & H).
    destruct (H comp Hb) as (P & A). assert (Hn1 : (1 <= n)%nat) by lia.
    exists lo', hi', (pw_val p comp), (cols comp). split; [exact HF|]. split; [|split].
    - intros t. apply (sf_call n x (ysh y) e f cols p comp HR).
    - intros q Hq. split; [destruct (proj1 P q ltac:(lia)) as (L & _); lia|].
      intros t Ht. apply (sf_piece n x (ysh y) e f cols p comp Hn1 Hx HR Hb); auto. lia.
    - unfold dxs in A. replace (S (length x - 2)) with (length x - 1)%nat in A by lia. exact A.
  Qed.

  (* Extrapolation to degree e below and f above (default n-1 both): Taylor polynomials of
     the end pieces.  g lists derivatives: continuous at x[0] up to order e, at x[-1] up to
     order f, and everywhere up to min(e, f, n-1). *)
  Theorem C55_extrap : forall n x y lo hi extrap p e f comp,
    (2 <= n)%nat -> incr x -> ex_pair n extrap = (e, f) -> spline inv sb s x y n lo hi false extrap = Ok p ->
    inb comp (ysh y) ->
    exists F g Q dl dr, (forall t, pw_call p comp t = Ok (F t)) /\ on_pieces n x F Q /\ (forall t, g 0%nat t = F t) /\
      (forall k, nderiv_at k (peval (Q 0%nat)) 0 (dl k)) /\
      (forall k, nderiv_at k (peval (Q (length x - 2)%nat)) (nth (length x - 1) x 0 - nth (length x - 2) x 0) (dr k)) /\
      ((0 <= e)%Z ->
        (forall t, t <= nth 0 x 0 -> F t = taylor_poly dl (Z.to_nat e) (t - nth 0 x 0)) /\
        derivs_at (Z.to_nat e) g (nth 0 x 0) /\ (forall k, (k <= Z.to_nat e)%nat -> g k (nth 0 x 0) = dl k)) /\
      ((0 <= f)%Z ->
        (forall t, nth (length x - 1) x 0 <= t -> F t = taylor_poly dr (Z.to_nat f) (t - nth (length x - 1) x 0)) /\
        derivs_at (Z.to_nat f) g (nth (length x - 1) x 0)) /\
      (forall k, g k (nth (length x - 1) x 0) = dr k) /\
      (e = (-1)%Z -> forall t, t <= nth 0 x 0 -> F t = 0) /\
      (f = (-1)%Z -> forall t, nth (length x - 1) x 0 < t -> F t = 0) /\
      (forall m, (m <= n - 1)%nat -> (Z.of_nat m <= e)%Z -> (Z.of_nat m <= f)%Z -> derivs_upto m F g).
  Proof using Hsb.
    intros n x y lo hi extrap p e f comp Hn Hi He E Hb.
    destruct (spline_all n x y lo hi extrap p e f Hn Hi He E) as ((Hx & _) & lo' & hi' & cols & HF & HR & H).
    destruct (H comp Hb) as (P & _). assert (Hn1 : (1 <= n)%nat) by lia.
    set (dx := nth (length x - 1) x 0 - nth (length x - 2) x 0).
    assert (Edx : dxs x (length x - 1 - 1) = dx).
    { unfold dxs, dx. numR. do 2 f_equal; lia. }
    assert (EL : (length x - 1 - 1 = length x - 2)%nat) by lia.
    assert (Zt : forall c t, peval (zero_tail (-1) c) t = 0).
    { intros c t. rewrite (peval_nth_sum _ (length c)) by (rewrite zero_tail_len; lia). apply sum_eq_R0. intros k _.
      rewrite nth_zero_tail by lia. destruct (Z.leb_spec (Z.of_nat k) (-1)); [lia|ring]. }
    assert (XK : pxk p = x) by apply (sf_xk n x (ysh y) e f cols p HR).
    exists (pw_val p comp), (sg p comp), (cols comp), (fun k => INR (fact k) * nth k (cols comp 0%nat) 0),
      (fun k => INR (fact k) * tay k (cols comp (length x - 2)%nat) dx).
    assert (KN : forall i j, (i < length x)%nat -> (j < length x)%nat -> nth i x 0 = nth j x 0 -> i = j).
    { intros i j H1 H2 E'. destruct (Nat.lt_trichotomy i j) as [L|[L|L]]; auto; exfalso.
      - pose proof (incr_lt x i j Hi). specialize (H0 ltac:(lia)). lra.
      - pose proof (incr_lt x j i Hi). specialize (H0 ltac:(lia)). lra. }
    split; [|split; [|split; [|split; [|split; [|split; [|split; [|split; [|split; [|split]]]]]]]]].
    - intros t. apply (sf_call n x (ysh y) e f cols p comp HR).
    - intros q Hq. split; [destruct (proj1 P q ltac:(lia)) as (L & _); lia|].
      intros t Ht. apply (sf_piece n x (ysh y) e f cols p comp Hn1 Hx HR Hb); auto. lia.
    - intros t. apply (sg_0 n x (ysh y) e f cols p comp HR).
    - intros k. apply nderiv_at_peval. rewrite tay_at_0. reflexivity.
    - intros k. apply nderiv_at_peval. reflexivity.
    - intros H0. split; [|split].
      + intros t Ht. rewrite (sf_below n x (ysh y) e f cols p comp Hn1 Hx HR Hb) by auto. apply zero_tail_taylor; auto.
      + split; intros k Hk; [apply pder_dpl|apply pder_cont]; try (rewrite XK; exact Hi); rewrite XK; intros j Hj Ej;
          apply KN in Ej; try lia; subst j; [split|]; apply (sf_match0 n x (ysh y) e f cols p comp Hn1 Hx HR Hb); lia.
      + intros k Hk. apply (sg_first n x (ysh y) e f cols p comp Hn1 Hx HR Hb); lia.
    - intros H0. assert (AB : forall t, nth (length x - 1) x 0 < t ->
        pw_val p comp t = taylor_poly (fun k => INR (fact k) * tay k (cols comp (length x - 2)%nat) dx) (Z.to_nat f) (t - nth (length x - 1) x 0)).
      { intros t Ht. rewrite (sf_above n x (ysh y) e f cols p comp Hn1 Hx HR Hb) by auto. apply zero_tail_taylor; auto.
        intros k _. f_equal. rewrite EL in *. rewrite Edx. rewrite <- (tay_at_0 k (pshift _ _)), pshift_tay, Rplus_0_r; auto.
        apply (sf_ne n x cols comp (yval y comp) Hn1 Hx P). lia. }
      split.
      + intros t [Ht|<-]; [apply AB; auto|].
        rewrite (sf_knot n x (ysh y) e f cols p comp (yval y comp) Hn1 Hx HR Hb P) by lia.
        replace (nth (length x - 1) x 0 - nth (length x - 1) x 0) with 0 by ring.
        assert (T0 : forall d h, taylor_poly d h 0 = d 0%nat).
        { intros d h. unfold taylor_poly. induction h as [|h IH]; cbn [sum_f_R0]; [cbn; field|]. rewrite IH. rewrite pow_ne_zero by lia. ring. }
        rewrite T0. destruct (proj1 P (length x - 2)%nat ltac:(lia)) as (_ & _ & P3). rewrite <- EL in P3 at 2. rewrite Edx in P3.
        cbn [fact]. rewrite P3. cbn [INR]. rewrite Rmult_1_l. f_equal. lia.
      + split; intros k Hk; [apply pder_dpl|apply pder_cont]; try (rewrite XK; exact Hi); rewrite XK; intros j Hj Ej;
          apply KN in Ej; try lia; subst j; [split|]; apply (sf_matchN n x (ysh y) e f cols p comp (yval y comp) Hn1 Hx HR Hb P); lia.
    - intros k. rewrite (sg_last n x (ysh y) e f cols p comp Hn1 Hx HR Hb), Edx, EL. reflexivity.
    - intros -> t Ht. rewrite (sf_below n x (ysh y) _ f cols p comp Hn1 Hx HR Hb) by auto. apply Zt.
    - intros -> t Ht. rewrite (sf_above n x (ysh y) e _ cols p comp Hn1 Hx HR Hb) by auto. apply Zt.
    - intros m Hm He' Hf'. apply (sg_match n x (ysh y) e f cols p comp Hn1 Hx HR). intros j k Hj Hk.
      destruct (Nat.eq_dec j 0) as [->|]; [apply (sf_match0 n x (ysh y) e f cols p comp Hn1 Hx HR Hb); lia|].
      destruct (Nat.eq_dec j (length x - 1)) as [->|]; [apply (sf_matchN n x (ysh y) e f cols p comp (yval y comp) Hn1 Hx HR Hb P); lia|].
      apply (sf_match_in n x (ysh y) e f cols p comp (yval y comp) Hn1 Hx HR Hb P); lia.
  Qed.

  (* --- when it succeeds --------------------------------------------------------------------- *)
  Lemma spline_succeeds n x y lo hi extrap : banded_complete sb -> (2 <= n)%nat -> incr x -> good_args x y n lo hi ->
    (forall lo' hi' v, filled n (bc_tuple lo) (bc_tuple hi) lo' hi' -> length lo' = (n - 1)%nat -> (length hi' <= n - 1)%nat ->
       (count_some lo' + count_some hi' = n - 1)%nat -> spl_hom n x false lo' hi' v ->
       forall i, (i < (length x - 1) * n)%nat -> v i = 0) ->
    exists p, spline inv sb s x y n lo hi false extrap = Ok p.
  Proof using Hsb.
    intros Hc Hn Hi (G1 & G2 & G3 & G4 & G5 & G6 & G7 & G8) H. destruct (ex_pair n extrap) as [e f] eqn:He.
    destruct (spline_core inv sb s n x y lo hi extrap e f Hsb Hn G1 Hi G2 G3 G4 G5 G6 G7 G8 He)
      as (lo' & hi' & F & L1 & L2 & C & _ & S). apply S; auto. intros v Hv. apply (H lo' hi'); auto.
  Qed.
  Lemma spec_some l k b : nth k l None = Some b -> spec_at l k.
  Proof. unfold spec_at. congruence. Qed.

  (* Quadratic and cubic splines: every call with admissible arguments (good_args,
     SplineFacts.v: at least two points, matching lengths, at most n-1 conditions of
     broadcastable shape) succeeds, whatever boundary conditions are chosen; and no other
     call does. *)
  Theorem C53_cubic_succeeds : forall n x y lo hi extrap, banded_complete sb -> (n = 2 \/ n = 3)%nat -> incr x ->
    (exists p, spline inv sb s x y n lo hi false extrap = Ok p) <-> good_args x y n lo hi.
  Proof using Hsb.
    intros n x y lo hi extrap Hc Hn Hi. split.
    { intros [p E]. apply (spline_ok_args inv sb s x y n lo hi extrap p); auto. lia. }
    intros G. apply spline_succeeds; auto; [lia|].
    intros lo' hi' v _ L1 L2 C Hv. assert (Hx : (2 <= length x)%nat) by apply G.
    destruct Hn as [-> | ->].
    - apply (spl_hom_zero_oneside 2 x lo' hi' v); auto; [lia|].
      destruct lo' as [|[b|] [|]]; cbn in L1; try lia.
      + left. intros [|k] Hk; [discriminate|lia].
      + right. destruct hi' as [|[b|] [|]]; cbn in L2, C; try lia. intros [|k] Hk; [discriminate|lia].
    - destruct lo' as [|a [|b [|]]]; cbn in L1; try lia.
      destruct a as [a|], b as [b|].
      + apply (spl_hom_zero_oneside 3 x [Some a; Some b] hi' v); auto. left. intros [|[|k]] Hk; [discriminate|discriminate|lia].
      + apply (spl_hom_zero_odd 3 2 x [Some a; None] hi' v); auto.
        * intros j Hj. assert (j = 1)%nat as -> by lia. left. discriminate.
        * intros j Hj. assert (j = 1)%nat as -> by lia.
          destruct hi' as [|[h0|] [|[h1|] [|]]]; cbn in L2, C; try lia; [left; discriminate|left; discriminate|right; discriminate].
      + apply (spl_hom_zero_odd 3 2 x [None; Some b] hi' v); auto.
        * intros j Hj. assert (j = 1)%nat as -> by lia. right. discriminate.
        * intros j Hj. assert (j = 1)%nat as -> by lia.
          destruct hi' as [|[h0|] [|[h1|] [|]]]; cbn in L2, C; try lia; [left; discriminate|left; discriminate|right; discriminate].
      + apply (spl_hom_zero_oneside 3 x [None; None] hi' v); auto. right.
        destruct hi' as [|[h0|] [|[h1|] [|]]]; cbn in L2, C; try lia. intros [|[|k]] Hk; [discriminate|discriminate|lia].
  Qed.

  (* Any degree: all n-1 conditions given at one end. *)
  Theorem C53_oneside_succeeds : forall n x y lo hi extrap, banded_complete sb -> (2 <= n)%nat -> incr x ->
    good_args x y n lo hi ->
    (forall k, (k < n - 1)%nat -> nth k (bc_tuple lo) None <> None) \/ (forall k, (k < n - 1)%nat -> nth k (bc_tuple hi) None <> None) ->
    exists p, spline inv sb s x y n lo hi false extrap = Ok p.
  Proof using Hsb.
    intros n x y lo hi extrap Hc Hn Hi G Ha. apply spline_succeeds; auto.
    assert (Mono : forall lo' hi' sl b, filled n (bc_tuple lo) (bc_tuple hi) lo' hi' ->
      getslot (bc_tuple lo) (bc_tuple hi) sl = Some b -> getslot lo' hi' sl = Some b).
    { intros lo' hi' sl b HF E. destruct (HF sl) as [_ H2]. rewrite H2; auto. intros I.
      apply (firstn_in_app _ _ []) in I. rewrite app_nil_r in I. apply filter_In in I. destruct I as [_ I]. rewrite E in I. discriminate. }
    intros lo' hi' v HF L1 L2 C Hv. apply (spl_hom_zero_oneside n x lo' hi' v); auto; [apply G|lia|].
    destruct Ha as [Ha|Ha]; [left|right]; intros k Hk; specialize (Ha k Hk).
    - destruct (nth k (bc_tuple lo) None) as [b|] eqn:E; [|congruence]. apply (spec_some _ _ b). apply (Mono lo' hi' (k, false) b HF E).
    - destruct (nth k (bc_tuple hi) None) as [b|] eqn:E; [|congruence]. apply (spec_some _ _ b). apply (Mono lo' hi' (k, true) b HF E).
  Qed.

  Lemma slots_top k m i b : (k <= m)%nat -> (m - k <= i < m)%nat -> In (i, b) (firstn (2 * k) (slots m)).
  Proof.
    revert m; induction k as [|k IH]; intros m Hm Hi; [lia|]. destruct m as [|m]; [lia|].
    replace (2 * S k)%nat with (S (S (2 * k))) by lia. cbn [slots firstn].
    destruct (Nat.eq_dec i m) as [->|]; [destruct b; [right; left|left]; reflexivity|].
    right. right. apply IH; lia.
  Qed.
  (* Odd degree n = 2r-1, no boundary conditions given (the natural spline), at least r
     points. *)
  Theorem C53_natural_succeeds : forall r x y extrap, banded_complete sb -> (2 <= r)%nat -> incr x -> (r <= length x)%nat ->
    yn y = length x -> size (ysh y) <> 0%nat ->
    exists p, spline inv sb s x y (2 * r - 1) (BcTuple []) (BcTuple []) false extrap = Ok p.
  Proof using Hsb.
    intros r x y extrap Hc Hr Hi Hx Hy Hsz. set (n := (2 * r - 1)%nat).
    apply spline_succeeds; auto; [unfold n; lia| |].
    { split; [lia|]. split; [exact Hy|]. split; [exact Hsz|]. cbn [bc_tuple length count_some filter].
      split; [lia|]. split; [lia|]. split; [cbn; lia|]. split; intros b []. }
    intros lo' hi' v HF L1 L2 C Hv. cbn [bc_tuple] in HF.
    assert (T : forall i b, (r - 1 <= i < n - 1)%nat -> getslot lo' hi' (i, b) = zero_bc).
    { intros i b Hb. destruct (HF (i, b)) as [H1 _]. apply H1. cbn [count_some filter length Nat.add].
      assert (FS : free_slots [] [] (slots (n - 1)) = slots (n - 1)).
      { clear H1. unfold free_slots. induction (slots (n - 1)) as [|[a c] l IH]; [reflexivity|]. cbn [filter].
        assert (Z : getslot [] [] (a, c) = None) by (unfold getslot; cbn; destruct a, c; reflexivity).
        rewrite Z. cbn. rewrite IH. reflexivity. }
      rewrite FS.
      match goal with |- In _ (firstn ?m _) => replace m with (2 * (r - 1))%nat by (cbn; unfold n; lia) end.
      apply slots_top; unfold n in *; lia. }
    apply (spl_hom_zero_odd n r x lo' hi' v); auto; try lia.
    - intros j Hj. right. apply (spec_some _ _ (scalar 0)). apply (T (n - j - 1)%nat false). unfold n. lia.
    - intros j Hj. right. apply (spec_some _ _ (scalar 0)). apply (T (n - j - 1)%nat true). unfold n. lia.
  Qed.

  (* Too many conditions: IndexError if more than n-1 in all, TypeError if one of the tuples
     is longer than n-1. *)
  Theorem C54_overspecified : forall n x y lo hi extrap,
    (2 <= n)%nat -> (2 <= length x)%nat -> incr x -> yn y = length x -> size (ysh y) <> 0%nat ->
    ((n <= length (bc_tuple lo) \/ n <= length (bc_tuple hi))%nat ->
       spline inv sb s x y n lo hi false extrap = Err TypeError) /\
    ((length (bc_tuple lo) < n)%nat -> (length (bc_tuple hi) < n)%nat ->
     (n - 1 < count_some (bc_tuple lo) + count_some (bc_tuple hi))%nat ->
       spline inv sb s x y n lo hi false extrap = Err IndexError).
  Proof using.
    intros n x y lo hi extrap Hn Hx Hi Hy Hsz. unfold spline.
    rewrite Hy, size_snoc_pos by (auto; lia). rewrite Nat.eqb_refl, incr_ends by auto.
    destruct (Nat.eqb_spec (length x) 0); [lia|]. destruct (Nat.ltb_spec (length x) 2); [lia|]. cbn [orb negb andb].
    destruct (ex_pair n extrap) as [e f]. split.
    - intros Ho. destruct (Nat.leb_spec n (length (bc_tuple lo))), (Nat.leb_spec n (length (bc_tuple hi))); try reflexivity. lia.
    - intros H1 H2 H3. destruct (Nat.leb_spec n (length (bc_tuple lo))); [lia|]. destruct (Nat.leb_spec n (length (bc_tuple hi))); [lia|].
      cbn [orb]. destruct (Nat.ltb_spec n 2); [lia|]. rewrite spl_bcs_over by auto. reflexivity.
  Qed.
  (* The documentation says boundary values are broadcast to the leading dimensions of y.
     They are not: b[k] is a row of the flattened leading dimensions, so with two leading
     dimensions a value of exactly those dimensions is rejected. *)
  Theorem C54_leading_dims_refuted : exists (x : list R) (y : yarr R) (b : nd R),
    incr x /\ yn y = length x /\ shp b = ysh y /\
    spline inv sb s x y 2 (BcTuple [Some b]) (BcTuple []) false ExNone = Err ValueError.
  Proof using.
    exists [0; 1], (YArr [2; 3]%nat 2 (fun _ _ => 0)), (Nd [2; 3]%nat (fun _ => 0)).
    assert (Hi : incr [0; 1]) by (intros [|[|i]] H; cbn in *; lra || lia).
    split; [exact Hi|]. split; [reflexivity|]. split; [reflexivity|].
    unfold spline. rewrite (incr_ends [0; 1] Hi) by (cbn; lia). reflexivity.
  Qed.

  (* --- decreasing x --------------------------------------------------------------------------- *)
  Definition decr (x : list R) : Prop := incr (rev x).
  Definition swap_ex (n : nat) (a : exarg) : exarg := let '(e, f) := ex_pair n a in ExPair f e.
  (* decreasing x: exactly the call with x and y reversed, lo and hi exchanged, extrap
     exchanged *)
  Theorem C53_decreasing : forall n x y lo hi extrap, (2 <= length x)%nat -> decr x ->
    spline inv sb s x y n lo hi false extrap =
    spline inv sb s (rev x) (yrev y) n hi lo false (swap_ex n extrap).
  Proof using.
    intros n x y lo hi extrap Hx Hd. unfold spline. rewrite rev_length. cbn [ysh yn yrev].
    destruct ((length x =? 0)%nat || (size (ysh y ++ [yn y]) =? 0)%nat); [reflexivity|].
    destruct (length x <? 2)%nat; [reflexivity|]. destruct (Nat.eqb_spec (yn y) (length x)) as [Hy|]; [|reflexivity]. cbn [negb andb].
    assert (Hn : nltb (nth (length (rev x) - 1) (rev x) n0) (nth 0 (rev x) n0) = false).
    { apply incr_ends; auto. rewrite rev_length; auto. }
    rewrite rev_length in Hn. rewrite Hn.
    assert (Hd' : nltb (nth (length x - 1) x n0) (nth 0 x n0) = true).
    { pose proof (incr_lt (rev x) 0 (length x - 1) Hd) as H. rewrite rev_length in H. specialize (H ltac:(lia)).
      rewrite !rev_nth in H by lia. replace (length x - 1)%nat with (length x - 1)%nat in H by lia.
      replace (length x - S (length x - 1))%nat with 0%nat in H by lia.
      numR. destruct (Rltb_spec (nth (length x - 1) x 0) (nth 0 x 0)) as [|N]; auto. }
    rewrite Hd'. unfold swap_ex. destruct (ex_pair n extrap) as [e f]. cbn [ex_pair].
    rewrite (orb_comm (n <=? length (bc_tuple hi))%nat). reflexivity.
  Qed.
  Theorem C56_decreasing : forall n x y, (2 <= length x)%nat -> decr x ->
    spline inv sb s x y n (BcTuple []) (BcTuple []) true ExNone =
    spline inv sb s (rev x) (yrev y) n (BcTuple []) (BcTuple []) true ExNone.
  Proof using.
    intros n x y Hx Hd. unfold spline. rewrite rev_length. cbn [ysh yn yrev].
    destruct ((length x =? 0)%nat || (size (ysh y ++ [yn y]) =? 0)%nat); [reflexivity|].
    destruct (length x <? 2)%nat; [reflexivity|]. destruct (Nat.eqb_spec (yn y) (length x)) as [Hy|]; [|reflexivity].
    cbn [negb andb bc_tuple length Nat.ltb Nat.leb orb ex_pair].
    assert (Hn : nltb (nth (length (rev x) - 1) (rev x) n0) (nth 0 (rev x) n0) = false).
    { apply incr_ends; auto. rewrite rev_length; auto. }
    rewrite rev_length in Hn. rewrite Hn.
    assert (Hd' : nltb (nth (length x - 1) x n0) (nth 0 x n0) = true).
    { pose proof (incr_lt (rev x) 0 (length x - 1) Hd) as H. rewrite rev_length in H. specialize (H ltac:(lia)).
      rewrite !rev_nth in H by lia.
      replace (length x - S (length x - 1))%nat with 0%nat in H by lia.
      numR. destruct (Rltb_spec (nth (length x - 1) x 0) (nth 0 x 0)) as [|N]; auto. }
    rewrite Hd'. reflexivity.
  Qed.

  (* --- periodic splines ----------------------------------------------------------------------- *)
  (* per=True: the value y[-1] is ignored, the function has period x[-1]-x[0], takes the
     other values at the knots (y[0] at x[-1]) and has n-1 continuous derivatives everywhere,
     in particular across the period. *)
  Theorem C56_periodic : forall n x y p comp,
    (2 <= n)%nat -> incr x -> (2 <= length x)%nat -> yn y = length x -> size (ysh y) <> 0%nat ->
    spline inv sb s x y n (BcTuple []) (BcTuple []) true ExNone = Ok p -> inb comp (ysh y) ->
    exists F g Q, (forall t, pw_call p comp t = Ok (F t)) /\
      (forall t, F (t + (nth (length x - 1) x 0 - nth 0 x 0)) = F t) /\
      on_pieces n x F Q /\
      (forall i, (i < length x - 1)%nat -> F (nth i x 0) = yval y comp i) /\
      F (nth (length x - 1) x 0) = yval y comp 0 /\
      derivs_upto (n - 1) F g /\
      (forall k t, g k (t + (nth (length x - 1) x 0 - nth 0 x 0)) = g k t).
  Proof using Hsb Hs.
    intros n x y p comp Hn Hi Hx Hy Hsz E Hb.
    destruct (spline_per_core inv sb s n x y Hsb Hs Hn Hx Hi Hy Hsz) as [S _].
    destruct (S p E) as (cols & (W & P1 & P2 & P3 & P4 & P5 & P6) & HPc). clear S.
    pose proof (HPc comp Hb) as [Q1 Q2]. set (nseg := (length x - 1)%nat) in *.
    assert (Hb' : inb comp (csh (pc p))) by (rewrite P3; auto).
    assert (ET : per_len p = nth nseg x 0 - nth 0 x 0) by (unfold per_len; rewrite P2; reflexivity).
    assert (HT : 0 < per_len p) by (apply per_len_pos; auto).
    assert (RI : forall t, nth 0 x 0 <= t < nth nseg x 0 -> pw_reduce p t = t).
    { intros t Ht. apply (reduce_unique p _ _ 0 W P1); [ring|]. rewrite P2, ET. lra. }
    assert (PV : forall q t, (q < nseg)%nat -> nth q x 0 < t <= nth (S q) x 0 -> t < nth nseg x 0 ->
              pw_val p comp t = peval (cols comp q) (t - nth q x 0)).
    { intros q t Hq Ht Hl. rewrite pw_val_base, RI by (pose proof (incr_le x 0 q Hi ltac:(unfold nseg in *; lia)); lra).
      rewrite (base_piece p comp (S q)); [rewrite pxk0_S, P2, P6 by auto; reflexivity|rewrite P2; auto|].
      rewrite P2. apply interval_piece; auto. unfold nseg in *; lia. }
    assert (V0 : pw_val p comp (nth 0 x 0) = yval y comp 0).
    { rewrite pw_val_base, RI by (pose proof (incr_lt x 0 nseg Hi ltac:(unfold nseg; lia)); lra).
      rewrite (base_piece p comp 0); [|rewrite P2; auto|rewrite P2; apply in_piece_knot; auto; lia].
      destruct (wf_per p W P1) as (_ & _ & C). destruct (C comp Hb') as [-> _]. rewrite P6 by (auto; unfold nseg; lia).
      rewrite (wf_first p W), P2. replace (nth 0 x 0 - nth 0 x 0) with 0 by ring. rewrite peval_0.
      destruct (Q1 0%nat ltac:(unfold nseg; lia)) as (_ & -> & _). unfold y_per. destruct (Nat.eqb_spec 0 (length x - 1)); [lia|reflexivity]. }
    assert (PT : forall t, pw_val p comp (t + per_len p) = pw_val p comp t).
    { intros t. rewrite !pw_val_base. replace (per_len p) with (IZR 1 * per_len p) at 1 by ring. rewrite reduce_periodic; auto. }
    assert (VN : pw_val p comp (nth nseg x 0) = yval y comp 0).
    { rewrite <- V0, <- (PT (nth 0 x 0)). f_equal. rewrite ET. ring. }
    exists (pw_val p comp), (perg p comp), (cols comp).
    assert (Q1N : forall q, (q < nseg)%nat -> tay 0 (cols comp q) (dxs x q) = y_per x (yval y comp) (S q)).
    { intros q Hq. destruct (Q1 q Hq) as (_ & _ & T). rewrite Nat.add_1_r in T. exact T. }
    split; [|split; [|split; [|split; [|split; [|split]]]]].
    - intros t. apply pw_call_wf; auto.
    - intros t. rewrite <- ET. apply PT.
    - intros q Hq. split; [destruct (Q1 q ltac:(unfold nseg; lia)) as (L & _); lia|]. intros t Ht.
      destruct (Rlt_le_dec t (nth nseg x 0)) as [Hl|Hl]; [apply PV; auto; unfold nseg; lia|].
      pose proof (incr_le x (S q) nseg Hi ltac:(unfold nseg; lia)) as Hle.
      assert (Et : t = nth nseg x 0) by lra. assert (Eq : t = nth (S q) x 0) by lra.
      rewrite Et, VN. rewrite <- Et, Eq. pose proof (Q1N q ltac:(unfold nseg; lia)) as T. rewrite tay_0 in T.
      change (nth (S q) x 0 - nth q x 0) with (dxs x q). rewrite T. unfold y_per.
      destruct (Nat.eqb_spec (S q) (length x - 1)) as [|N]; [reflexivity|].
      pose proof (incr_lt x (S q) nseg Hi ltac:(unfold nseg; lia)). lra.
    - intros [|q] Hq; [exact V0|]. pose proof (incr_lt x (S q) nseg Hi ltac:(unfold nseg; lia)). pose proof (Hi q ltac:(lia)).
      rewrite (PV q) by (auto; try (unfold nseg; lia); lra). pose proof (Q1N q ltac:(unfold nseg; lia)) as T. rewrite tay_0 in T.
      change (nth (S q) x 0 - nth q x 0) with (dxs x q). rewrite T. unfold y_per.
      destruct (Nat.eqb_spec (S q) (length x - 1)); [lia|reflexivity].
    - exact VN.
    - apply perg_smooth; auto.
      + rewrite P2. intros j k Hj Hk. unfold match_at. destruct j as [|q]; [lia|].
        rewrite pxk0_S, P2, !P6 by (auto; unfold nseg; lia). change (nth (S q) x 0 - nth q x 0) with (dxs x q).
        destruct k as [|k].
        * rewrite Q1N by (unfold nseg; lia). destruct (Q1 (S q) ltac:(unfold nseg; lia)) as (_ & T & _). rewrite T. reflexivity.
        * rewrite Q2; auto; [|unfold nseg; lia|lia]. rewrite Nat.mod_small by (unfold nseg; lia). rewrite Nat.add_1_r. reflexivity.
      + intros k Hk. unfold per_match. rewrite P2.
        replace (length x - 1)%nat with (S (length x - 2)) at 1 by lia. rewrite !P6 by (auto; unfold nseg; lia).
        replace (nth (length x - 1) x 0 - nth (length x - 2) x 0) with (dxs x (length x - 2)).
        2:{ unfold dxs. numR. do 2 f_equal. lia. }
        destruct k as [|k].
        * rewrite Q1N by (unfold nseg; lia). destruct (Q1 0%nat ltac:(unfold nseg; lia)) as (_ & T & _). rewrite T. unfold y_per.
          destruct (Nat.eqb_spec (S (length x - 2)) (length x - 1)); [|lia]. destruct (Nat.eqb_spec 0 (length x - 1)); [lia|reflexivity].
        * rewrite Q2; auto; [|unfold nseg; lia|lia]. do 2 f_equal.
          replace (length x - 2 + 1)%nat with nseg by (unfold nseg; lia). apply Nat.mod_same. unfold nseg; lia.
    - intros k t. rewrite <- ET. apply perg_per; auto.
  Qed.
  (* odd degree: always succeeds *)
  Theorem C56_odd_succeeds : forall r x y, banded_complete sb -> dense_complete s -> (2 <= r)%nat ->
    incr x -> (2 <= length x)%nat -> yn y = length x -> size (ysh y) <> 0%nat ->
    exists p, spline inv sb s x y (2 * r - 1) (BcTuple []) (BcTuple []) true ExNone = Ok p.
  Proof using Hsb Hs.
    intros r x y C1 C2 Hr Hi Hx Hy Hsz.
    destruct (spline_per_core inv sb s (2 * r - 1) x y Hsb Hs ltac:(lia) Hx Hi Hy Hsz) as [_ S]. apply S; auto.
    - intros v Hv. apply (band_hom_zero (2 * r - 1) x v); auto. lia.
    - intros v Hv. apply (spl_hom_zero_per (2 * r - 1) r x v); auto.
  Qed.
  (* periodic with boundary conditions or extrap: TypeError *)
  Theorem C56_rejects : forall n x y lo hi extrap, (2 <= length x)%nat -> yn y = length x -> size (ysh y) <> 0%nat ->
    bc_tuple lo <> [] \/ bc_tuple hi <> [] \/ extrap <> ExNone ->
    spline inv sb s x y n lo hi true extrap = Err TypeError.
  Proof using.
    intros n x y lo hi extrap Hx Hy Hsz H. unfold spline.
    rewrite Hy, size_snoc_pos by (auto; lia). rewrite Nat.eqb_refl.
    destruct (Nat.eqb_spec (length x) 0); [lia|]. destruct (Nat.ltb_spec (length x) 2); [lia|]. cbn [orb negb andb].
    destruct (bc_tuple lo); [|reflexivity]. destruct (bc_tuple hi); [|reflexivity]. destruct extrap; try reflexivity.
    exfalso. destruct H as [H|[H|H]]; congruence.
  Qed.
End Spline.

(* --- pline ------------------------------------------------------------------------------------ *)
(* the line through (x[q], y[q]) and (x[q+1], y[q+1]) *)
Definition seg (x : list R) (y : nat -> R) (q : nat) (t : R) : R :=
  y q + (y (S q) - y q) / (nth (S q) x 0 - nth q x 0) * (t - nth q x 0).

Section Pline.
  Variable inv : nat -> (nat -> nat -> R) -> (nat -> nat -> R).
  Variable sb : nat -> nat -> arr2 R -> arr2 R -> res (arr2 R).
  Variable s : arr2 R -> arr2 R -> res (arr2 R).
  Hypothesis Hinv : inv_spec inv.
  Definition lcol (x : list R) (y : nat -> R) (q : nat) : list R := [y q; (y (S q) - y q) / dxs x q].
  Lemma lcol_eq x y q c : incr x -> (S q < length x)%nat -> length c = 2%nat -> nth 0 c 0 = y q -> tay 0 c (dxs x q) = y (S q) -> c = lcol x y q.
  Proof using.
    intros Hi Hq L E1 E2. destruct c as [|a [|b [|]]]; cbn in L; try lia. cbn in E1. subst a.
    rewrite tay_0, !peval_cons, peval_nil in E2. pose proof (dxs_pos x q Hi ltac:(lia)) as Hd.
    unfold lcol. f_equal. f_equal. rewrite <- E2. field. lra.
  Qed.
  Lemma lcol_pieces x y : incr x -> (2 <= length x)%nat -> pieces 1 x false y (lcol x y).
  Proof using.
    intros Hi Hx. split.
    - intros q Hq. split; [reflexivity|]. split; [reflexivity|]. rewrite tay_0, Nat.add_1_r. unfold lcol. rewrite !peval_cons, peval_nil.
      pose proof (dxs_pos x q Hi ltac:(lia)). field. lra.
    - intros q m Hq Hm. exfalso; lia.
  Qed.
  Lemma lcol_seg x y q t : (S q < length x)%nat -> peval (lcol x y q) (t - nth q x 0) = seg x y q t.
  Proof using. intros Hq. unfold lcol, seg, dxs. numR. rewrite !peval_cons, peval_nil. ring. Qed.
  Lemma pline_result x y extrap e f : incr x -> (2 <= length x)%nat -> yn y = length x -> size (ysh y) <> 0%nat ->
    ex_pair 1 extrap = (e, f) ->
    exists p, pline inv sb s x y extrap false = Ok p /\
      spl_result 1 x (ysh y) e f (fun comp => lcol x (yval y comp)) p.
  Proof using Hinv.
    intros Hi Hx Hy Hsz He. unfold pline, spline. rewrite Hy, size_snoc_pos by (auto; lia). rewrite Nat.eqb_refl, incr_ends by auto.
    destruct (Nat.eqb_spec (length x) 0); [lia|]. destruct (Nat.ltb_spec (length x) 2); [lia|].
    cbn [orb negb andb bc_tuple length Nat.leb Nat.ltb]. rewrite He.
    unfold spl_linear. destruct (ctor_odd_ok inv Hinv Pw x [y] (ysh y) Hi Hx Hsz) as (r & E & W & R1 & R2 & R3 & R4 & R5 & _).
    { repeat constructor; auto. } { discriminate. }
    cbn [length Nat.sub] in R4, R5. rewrite E. cbn [bind]. eexists. split; [reflexivity|].
    assert (CK : ck (pc r) = S (length x)) by (rewrite ck_eq by auto; rewrite R2; reflexivity).
    assert (CL : forall comp q, inb comp (ysh y) -> (S q < length x)%nat -> ccol (pc r) comp (S q) = lcol x (yval y comp) q).
    { intros comp q Hb Hq. rewrite <- R3 in Hb. destruct (R5 comp q 0%nat Hb Hq ltac:(lia)) as [E1 E2].
      apply lcol_eq; auto.
      - rewrite (cwf_col _ (wf_c r W)) by (auto; rewrite CK; lia). exact R4.
      - rewrite E1. unfold yk. cbn. field.
      - rewrite E2. unfold yk. cbn. field. }
    set (c2 := fun comp i => _).
    assert (Cn : forall comp, inb comp (ysh y) -> c2 comp 0%nat = zero_tail e (lcol x (yval y comp) 0) /\
      (forall q, (q < length x - 1)%nat -> c2 comp (S q) = lcol x (yval y comp) q) /\
      c2 comp (length x) = zero_tail f (pshift (lcol x (yval y comp) (length x - 1 - 1)) (dxs x (length x - 1 - 1)))).
    { intros comp Hb. unfold c2. rewrite CK, R2. destruct (Nat.ltb_spec 1 (length x)); [|lia]. cbn [andb].
      replace (S (length x) - 1)%nat with (length x) by lia. split; [|split].
      - destruct (Nat.eqb_spec 0 (length x)); [lia|]. rewrite Nat.eqb_refl, CL by (auto; lia). reflexivity.
      - intros q Hq. destruct (Nat.eqb_spec (S q) (length x)); [lia|]. destruct (Nat.eqb_spec (S q) 0); [lia|]. apply CL; auto. lia.
      - rewrite Nat.eqb_refl. destruct (Nat.eqb_spec (S (length x) - 2) 0); [lia|].
        replace (S (length x) - 2)%nat with (S (length x - 2)) by lia. rewrite CL by (auto; lia).
        replace (length x - 1 - 1)%nat with (length x - 2)%nat by lia. unfold dxs. numR.
        replace (S (length x - 2)) with (length x - 1)%nat by lia. reflexivity. }
    split; [|split; [|split; [|split; [|split; [|split]]]]]; cbn [pcl pxk0 pc pper csh cn ck ccol]; auto.
    split; cbn [pcl pxk0 pc pper]; try apply W.
    - split; cbn [cn csh ck ccol]; [rewrite R4; lia|]. intros comp i Hb Hlt. rewrite R3 in Hb. rewrite CK in Hlt. rewrite R4.
      destruct (Cn comp Hb) as (C1 & C2 & C3). destruct i as [|q]; [rewrite C1, zero_tail_len; reflexivity|].
      destruct (Nat.eq_dec (S q) (length x)) as [->|]; [rewrite C3, zero_tail_len, pshift_length by discriminate; reflexivity|].
      rewrite C2 by lia. reflexivity.
    - intros Hc. rewrite R1 in Hc. discriminate.
  Qed.

  (* pline(x, y, extrap): always returns; on [x[q], x[q+1]] it is the line through the two
     points; outside it is constant by default (extrap=0), the continued end line for
     extrap=1. *)
  Theorem C57_pline : forall x y extrap e f, incr x -> (2 <= length x)%nat -> yn y = length x -> size (ysh y) <> 0%nat ->
    ex_pair 1 extrap = (e, f) ->
    exists p, pline inv sb s x y extrap false = Ok p /\ forall comp, inb comp (ysh y) ->
      (forall q t, (S q < length x)%nat -> nth q x 0 <= t <= nth (S q) x 0 -> (0 <= e)%Z \/ nth 0 x 0 < t ->
         pw_call p comp t = Ok (seg x (yval y comp) q t)) /\
      (forall t, t <= nth 0 x 0 ->
         (e = 0%Z -> pw_call p comp t = Ok (yval y comp 0)) /\
         ((1 <= e)%Z -> pw_call p comp t = Ok (seg x (yval y comp) 0 t))) /\
      (forall t, nth (length x - 1) x 0 <= t ->
         (f = 0%Z -> pw_call p comp t = Ok (yval y comp (length x - 1))) /\
         ((1 <= f)%Z -> pw_call p comp t = Ok (seg x (yval y comp) (length x - 2) t))).
  Proof using Hinv.
    intros x y extrap e f Hi Hx Hy Hsz He. destruct (pline_result x y extrap e f Hi Hx Hy Hsz He) as (p & E & HR).
    exists p. split; [exact E|]. intros comp Hb. set (Y := yval y comp).
    assert (HP : pieces 1 x false Y (lcol x Y)) by (apply lcol_pieces; auto).
    set (cols := fun comp => lcol x (yval y comp)) in HR. assert (H1 : (1 <= 1)%nat) by lia.
    assert (CALL : forall t, pw_call p comp t = Ok (pw_val p comp t)) by (intros; apply (sf_call 1 x (ysh y) e f cols p comp HR)).
    assert (LEFT : forall q, (S q < length x)%nat -> seg x Y q (nth q x 0) = Y q).
    { intros q Hq. unfold seg. replace (nth q x 0 - nth q x 0) with 0 by ring. ring. }
    assert (RIGHT : forall q, (S q < length x)%nat -> seg x Y q (nth (S q) x 0) = Y (S q)).
    { intros q Hq. unfold seg. pose proof (Hi q Hq). field. lra. }
    assert (KN : forall i, (1 <= i < length x)%nat -> pw_val p comp (nth i x 0) = Y i).
    { intros i Hlt. apply (sf_knot 1 x (ysh y) e f cols p comp Y H1 Hx HR Hb HP i Hlt). }
    assert (ZT : forall c a b, c = [a; b] -> forall g t, (g = 0%Z -> peval (zero_tail g c) t = a) /\ ((1 <= g)%Z -> peval (zero_tail g c) t = a + b * t)).
    { intros c a b -> g t. rewrite (peval_nth_sum _ 1) by (rewrite zero_tail_len; cbn; lia). cbn [sum_f_R0]. split.
      - intros ->. rewrite !nth_zero_tail by lia. cbn. ring.
      - intros Hg. rewrite !nth_zero_tail by lia. destruct (Z.leb_spec (Z.of_nat 0) g); [|lia]. destruct (Z.leb_spec (Z.of_nat 1) g); [|lia]. cbn. ring. }
    assert (BELOW : forall t, t <= nth 0 x 0 ->
         (e = 0%Z -> pw_val p comp t = Y 0%nat) /\ ((1 <= e)%Z -> pw_val p comp t = seg x Y 0 t)).
    { intros t Ht. rewrite (sf_below 1 x (ysh y) e f cols p comp H1 Hx HR Hb t Ht).
      destruct (ZT (cols comp 0%nat) (Y 0%nat) ((Y 1%nat - Y 0%nat) / dxs x 0) eq_refl e (t - nth 0 x 0)) as [Z1 Z2].
      split; [exact Z1|]. intros He1. rewrite Z2 by auto. unfold seg, dxs. numR. reflexivity. }
    split; [|split].
    - intros q t Hq Ht Hc. rewrite CALL. f_equal. destruct (Req_dec t (nth q x 0)) as [->|Hne].
      + rewrite LEFT by auto. destruct q as [|q]; [|apply KN; lia].
        assert (He0 : (0 <= e)%Z) by (destruct Hc; [auto|lra]).
        pose proof (sf_knot0 1 x (ysh y) e f cols p comp Y H1 Hx HR Hb HP) as K. destruct (Z.leb_spec 0 e); [exact K|lia].
      + rewrite (sf_piece 1 x (ysh y) e f cols p comp H1 Hx HR Hb q t) by (try lia; lra). apply lcol_seg; auto.
    - intros t Ht. rewrite CALL. destruct (BELOW t Ht) as [B1 B2]. split; intros Hq; f_equal; auto.
    - intros t Ht. rewrite CALL.
      assert (A : (f = 0%Z -> pw_val p comp t = Y (length x - 1)%nat) /\ ((1 <= f)%Z -> pw_val p comp t = seg x Y (length x - 2) t)).
      { destruct Ht as [Ht|<-].
        - rewrite (sf_above 1 x (ysh y) e f cols p comp H1 Hx HR Hb t Ht).
          assert (Ed : dxs x (length x - 1 - 1) = nth (length x - 1) x 0 - nth (length x - 2) x 0) by (unfold dxs; numR; do 2 f_equal; lia).
          assert (EP : pshift (cols comp (length x - 1 - 1)%nat) (dxs x (length x - 1 - 1)) =
                       [Y (length x - 1)%nat; (Y (length x - 1)%nat - Y (length x - 2)%nat) / (nth (length x - 1) x 0 - nth (length x - 2) x 0)]).
          { assert (L2 : length (pshift (cols comp (length x - 1 - 1)%nat) (dxs x (length x - 1 - 1))) = 2%nat)
              by (rewrite pshift_length by discriminate; reflexivity).
            assert (T : forall k, nth k (pshift (cols comp (length x - 1 - 1)%nat) (dxs x (length x - 1 - 1))) 0 =
                                  tay k (cols comp (length x - 1 - 1)%nat) (dxs x (length x - 1 - 1))).
            { intros k. rewrite <- (tay_at_0 k (pshift _ _)), pshift_tay, Rplus_0_r by discriminate. reflexivity. }
            pose proof (T 0%nat) as T0. pose proof (T 1%nat) as T1.
            destruct (pshift _ _) as [|a [|b [|]]]; cbn [length] in L2; try lia. cbn [nth] in T0, T1. f_equal; [|f_equal].
            - rewrite T0. destruct (proj1 HP (length x - 1 - 1)%nat ltac:(lia)) as (_ & _ & P3).
              change (lcol x Y (length x - 1 - 1)) with (cols comp (length x - 1 - 1)%nat) in P3. rewrite P3. f_equal. lia.
            - rewrite T1. unfold cols, lcol. cbn [tay]. rewrite Ed. fold Y.
              replace (length x - 1 - 1)%nat with (length x - 2)%nat by lia. replace (S (length x - 2)) with (length x - 1)%nat by lia.
              cbn; ring. }
          destruct (ZT _ _ _ EP f (t - nth (length x - 1) x 0)) as [Z1 Z2]. split; [exact Z1|]. intros Hf. rewrite Z2 by auto.
          unfold seg. replace (S (length x - 2)) with (length x - 1)%nat by lia.
          pose proof (Hi (length x - 2)%nat ltac:(lia)) as Hd. replace (S (length x - 2)) with (length x - 1)%nat in Hd by lia. field. lra.
        - split; intros _; rewrite KN by lia; [reflexivity|].
          pose proof (RIGHT (length x - 2)%nat ltac:(lia)) as RR. replace (S (length x - 2)) with (length x - 1)%nat in RR by lia. auto. }
      destruct A as [A1 A2]. split; intros Hq; f_equal; auto.
  Qed.
  (* decreasing x: the same function *)
  Theorem C57_decreasing : forall x y extrap, (2 <= length x)%nat -> decr x ->
    pline inv sb s x y extrap false = pline inv sb s (rev x) (yrev y) (swap_ex 1 extrap) false.
  Proof using. intros x y extrap Hx Hd. apply C53_decreasing; auto. Qed.

  Lemma per_pline_result x y : incr x -> (2 <= length x)%nat -> yn y = length x -> size (ysh y) <> 0%nat ->
    exists p r, pline inv sb s x y ExNone true = Ok p /\ pw_wf r /\ pcl r = Per /\ pxk r = x /\ pw_ok p = Ok tt /\
      pxk p = x /\ pxk0 p = pxk0 r /\ (forall t, pw_reduce p t = pw_reduce r t) /\
      forall comp, inb comp (ysh y) -> ccol (pc p) comp 0 = [yval y comp 0; 0] /\
        forall q, (S q < length x)%nat -> ccol (pc p) comp (S q) = lcol x (y_per x (yval y comp)) q.
  Proof using Hinv.
    intros Hi Hx Hy Hsz. unfold pline, spline. rewrite Hy, size_snoc_pos by (auto; lia). rewrite Nat.eqb_refl, incr_ends by auto.
    destruct (Nat.eqb_spec (length x) 0); [lia|]. destruct (Nat.ltb_spec (length x) 2); [lia|].
    cbn [orb negb andb bc_tuple length Nat.leb Nat.ltb ex_pair].
    set (y' := YArr _ _ _). unfold spl_linear.
    destruct (ctor_odd_ok inv Hinv Per x [y'] (ysh y) Hi Hx Hsz) as (r & E & W & R1 & R2 & R3 & R4 & R5 & _).
    { repeat constructor; auto. } { discriminate. }
    cbn [length Nat.sub] in R4, R5. rewrite E. cbn [bind]. eexists. exists r. split; [reflexivity|].
    assert (CK : ck (pc r) = S (length x)) by (rewrite ck_eq by auto; rewrite R2; reflexivity).
    assert (CL : forall comp q, inb comp (ysh y) -> (S q < length x)%nat -> ccol (pc r) comp (S q) = lcol x (y_per x (yval y comp)) q).
    { intros comp q Hb Hq. rewrite <- R3 in Hb. destruct (R5 comp q 0%nat Hb Hq ltac:(lia)) as [E1 E2].
      apply lcol_eq; auto.
      - rewrite (cwf_col _ (wf_c r W)) by (auto; rewrite CK; lia). exact R4.
      - rewrite E1. unfold yk, y_per, y'. cbn. field.
      - rewrite E2. unfold yk, y_per, y'. cbn [nth yval fact INR]. field. }
    split; [exact W|]. split; [exact R1|]. split; [exact R2|]. split; [|split; [exact R2|split; [reflexivity|split; [reflexivity|]]]].
    - pose proof (pw_ok_wf r W) as O. unfold pw_ok in *. cbn [pc pcl pper pxk0 cn ck]. exact O.
    - intros comp Hb. cbn [pc ccol]. rewrite CK, R2. replace (S (length x) - 1)%nat with (length x) by lia.
      destruct (Nat.ltb_spec 1 (length x)); [|lia]. cbn [andb]. split.
      + destruct (Nat.eqb_spec 0 (length x)); [lia|]. rewrite Nat.eqb_refl, CL by (auto; lia). unfold y_per.
        unfold lcol. destruct (Nat.eqb_spec 0 (length x - 1)); [lia|]. reflexivity.
      + intros q Hq. destruct (Nat.eqb_spec (S q) (length x)); [lia|]. destruct (Nat.eqb_spec (S q) 0); [lia|]. apply CL; auto.
  Qed.
  (* pline(x, y, per=True): periodic linear interpolation of y[:-1], closing at y[0] *)
  Theorem C57_periodic : forall x y, incr x -> (2 <= length x)%nat -> yn y = length x -> size (ysh y) <> 0%nat ->
    exists p, pline inv sb s x y ExNone true = Ok p /\ forall comp, inb comp (ysh y) ->
      let Y i := yval y comp (if (i =? length x - 1)%nat then 0%nat else i) in
      (forall t, pw_call p comp (t + (nth (length x - 1) x 0 - nth 0 x 0)) = pw_call p comp t) /\
      (forall q t, (S q < length x)%nat -> nth q x 0 <= t <= nth (S q) x 0 -> pw_call p comp t = Ok (seg x Y q t)).
  Proof using Hinv.
    intros x y Hi Hx Hy Hsz. destruct (per_pline_result x y Hi Hx Hy Hsz) as (p & r & E & W & P1 & P2 & P3 & P4 & P5 & P6 & C).
    exists p. split; [exact E|]. intros comp Hb Y. destruct (C comp Hb) as [C0 CS]. change (y_per x (yval y comp)) with Y in CS.
    assert (ET : per_len r = nth (length x - 1) x 0 - nth 0 x 0) by (unfold per_len; rewrite P2; reflexivity).
    assert (CALL : forall t, pw_call p comp t = Ok (base p comp (pw_reduce r t))).
    { intros t. unfold pw_call. rewrite P3. cbn [bind]. rewrite pw_val_base, P6. reflexivity. }
    assert (PT : forall t, pw_call p comp (t + (nth (length x - 1) x 0 - nth 0 x 0)) = pw_call p comp t).
    { intros t. rewrite !CALL, <- ET. replace (per_len r) with (IZR 1 * per_len r) at 1 by ring. rewrite reduce_periodic; auto. }
    assert (RI : forall t, nth 0 x 0 <= t < nth (length x - 1) x 0 -> pw_reduce r t = t).
    { intros t Ht. apply (reduce_unique r _ _ 0 W P1); [ring|]. rewrite P2, ET. lra. }
    pose proof (incr_lt x 0 (length x - 1) Hi ltac:(lia)) as H0N.
    assert (V0 : pw_call p comp (nth 0 x 0) = Ok (Y 0%nat)).
    { rewrite CALL, RI by lra. f_equal. rewrite (base_piece p comp 0); [|rewrite P4; auto|rewrite P4; apply in_piece_knot; auto; lia].
      rewrite C0, P5, (wf_first r W), P2. replace (nth 0 x 0 - nth 0 x 0) with 0 by ring. rewrite peval_0. cbn [nth]. unfold Y.
      destruct (Nat.eqb_spec 0 (length x - 1)); [lia|reflexivity]. }
    split; [exact PT|]. intros q t Hq Ht.
    assert (RIGHT : seg x Y q (nth (S q) x 0) = Y (S q)) by (unfold seg; pose proof (Hi q Hq); field; lra).
    assert (IN : nth q x 0 < t -> t < nth (length x - 1) x 0 -> pw_call p comp t = Ok (seg x Y q t)).
    { intros H1 H2. rewrite CALL, RI by (pose proof (incr_le x 0 q Hi ltac:(lia)); lra). f_equal.
      rewrite (base_piece p comp (S q)); [|rewrite P4; auto|rewrite P4; apply interval_piece; auto; lra].
      rewrite CS by auto. rewrite pxk0_S, P4. apply lcol_seg; auto. }
    destruct (Rlt_le_dec (nth q x 0) t) as [Hl|Hl].
    - destruct (Rlt_le_dec t (nth (length x - 1) x 0)) as [Hr|Hr]; [apply IN; auto|].
      pose proof (incr_le x (S q) (length x - 1) Hi ltac:(lia)) as Hle. assert (Et : t = nth (S q) x 0) by lra.
      assert (El : S q = (length x - 1)%nat).
      { destruct (Nat.eq_dec (S q) (length x - 1)); auto. pose proof (incr_lt x (S q) (length x - 1) Hi ltac:(lia)). lra. }
      rewrite Et, RIGHT. rewrite El. unfold Y at 1. rewrite Nat.eqb_refl.
      replace (nth (length x - 1) x 0) with (nth 0 x 0 + (nth (length x - 1) x 0 - nth 0 x 0)) by ring. rewrite PT, V0. unfold Y.
      destruct (Nat.eqb_spec 0 (length x - 1)); [lia|reflexivity].
    - assert (Et : t = nth q x 0) by lra. subst t. replace (seg x Y q (nth q x 0)) with (Y q) by (unfold seg; replace (nth q x 0 - nth q x 0) with 0 by ring; ring).
      destruct q as [|q]; [exact V0|]. pose proof (incr_lt x (S q) (length x - 1) Hi ltac:(lia)) as H3. pose proof (Hi q ltac:(lia)).
      rewrite CALL, RI by (pose proof (incr_le x 0 (S q) Hi ltac:(lia)); lra). f_equal.
      rewrite (base_piece p comp (S q)); [|rewrite P4; auto|rewrite P4; apply interval_piece; [auto|lia|lra]].
      rewrite CS by lia. rewrite pxk0_S, P4. rewrite lcol_seg by lia. unfold seg. field. lra.
  Qed.
  (* ... but asked for a derivative at x[0] it answers 0 whatever the slope is: spline zeroes
     the slope of the first column, which PerPwPoly uses at the period points.  Here
     y = 0, 1, 0, -1, 0 over x = 0, 1, 2, 3, 4 has slope 1 on both sides of x = 0. *)
  Theorem C57_periodic_slope_refuted : exists x y p F,
    incr x /\ pline inv sb s x y ExNone true = Ok p /\ (forall t, pw_call p [] t = Ok (F t)) /\
    derivable_pt_lim F 0 1 /\ pw_calln p [] 0 1 = Ok [0; 0].
  Proof using Hinv.
    set (x := [0; 1; 2; 3; 4]). set (y := YArr [] 5 (fun _ i => nth i [0; 1; 0; -1; 0] 0)). exists x, y.
    assert (Hi : incr x) by (intros [|[|[|[|[|i]]]]] H; cbn in *; lra || lia).
    assert (Hb : inb [] (ysh y)) by constructor.
    destruct (per_pline_result x y Hi ltac:(cbn; lia) eq_refl ltac:(cbn; lia)) as (p & r & E & W & P1 & P2 & P3 & P4 & P5 & P6 & C).
    destruct (C57_periodic x y Hi ltac:(cbn; lia) eq_refl ltac:(cbn; lia)) as (p' & E' & H). rewrite E in E'. injection E' as <-.
    destruct (H [] Hb) as [PT SG].
    exists p, (pw_val p []). split; [exact Hi|]. split; [exact E|].
    assert (CALL : forall t, pw_call p [] t = Ok (pw_val p [] t)) by (intros; unfold pw_call; rewrite P3; reflexivity).
    split; [exact CALL|]. split.
    - apply (dpl_local _ id 0 1 1); [lra| |apply derivable_pt_lim_id]. intros t Ht. apply Rabs_def2 in Ht. unfold id.
      assert (D : pw_call p [] t = Ok t); [|rewrite CALL in D; injection D as D; exact D].
      destruct (Rle_lt_dec 0 t).
      + rewrite (SG 0%nat t) by (cbn; lia || lra). f_equal. unfold seg. cbn. field.
      + rewrite <- PT. rewrite (SG 3%nat) by (cbn; lia || lra). f_equal. unfold seg. cbn. field.
    - unfold pw_calln. rewrite P3. cbn [bind]. unfold pw_vals. rewrite P6.
      assert (R0 : pw_reduce r 0 = 0).
      { apply (reduce_unique r _ _ 0 W P1); [ring|]. unfold per_len. rewrite P2. cbn. lra. }
      rewrite R0. rewrite P4. rewrite (ssearch_unique x 0 0 Hi).
      + destruct (C [] Hb) as [-> _]. rewrite P5. numR. rewrite (wf_first r W), P2. cbn.
        repeat f_equal; ring.
      + apply (in_piece_knot x 0 Hi). cbn; lia.
  Qed.
End Pline.

(* --- the binomial table ------------------------------------------------------------------------- *)
Lemma binom_C j i : (i <= j)%nat -> INR (binom j i) = C j i.
Proof.
  revert i; induction j as [|j IH]; intros i H.
  - assert (i = 0)%nat as -> by lia. cbn. unfold C. cbn. field.
  - destruct i as [|i]; [rewrite binom_0; unfold C; rewrite Nat.sub_0_r; change (INR (fact 0)) with 1; cbn [INR]; field; apply INR_fact_neq_0|].
    rewrite binom_SS, plus_INR. destruct (Nat.eq_dec i j) as [->|].
    + rewrite binom_diag, (binom_gt j (S j)) by lia. unfold C. rewrite Nat.sub_diag. cbn [INR]. rewrite Rplus_0_r.
      change (INR (fact 0)) with 1. field. apply INR_fact_neq_0.
    + rewrite !IH by lia. apply pascal. lia.
Qed.
(* _bico(deg, nc) has nc+1 rows of deg+1 entries; entry j of row i is binomial(j, i), C of
   the standard library, zero for j < i *)
Theorem C61_binomial_table : forall deg nc, length (@bico R _ deg nc) = S nc /\
  forall i, (i <= nc)%nat -> length (nth i (@bico R _ deg nc) []) = S deg /\
    forall j, (j <= deg)%nat -> nth j (nth i (@bico R _ deg nc) []) 0 = if (j <? i)%nat then 0 else C j i.
Proof.
  intros deg nc. split; [apply bico_len|]. intros i Hi. rewrite nth_bico by auto. split; [rewrite binrow_len; lia|].
  intros j Hj. rewrite nth_binrow by auto. destruct (Nat.ltb_spec j i); [rewrite binom_gt by auto; reflexivity|].
  apply binom_C. auto.
Qed.
(* the table printed in the comment at pwpoly.py:963-967 *)
Example C61_case : map (@tl R) (@bico R _ 5 4) =
  [[1; 1; 1; 1; 1]; [1; 2; 3; 4; 5]; [0; 1; 3; 6; 10]; [0; 0; 1; 4; 10]; [0; 0; 0; 1; 5]].
Proof. cbn. repeat (f_equal; try lra). Qed.

(* --- concrete cases ----------------------------------------------------------------------------- *)
Definition gspl := spline inv_wit gbanded gdense.
Definition x4 : list R := [-1; 0; 2; 3].
Definition y4 : yarr R := YArr [] 4 (fun _ i => nth i [1; 1; -3; 5] 0).
Lemma x4_incr : incr x4.
Proof. intros [|[|[|[|i]]]] H; cbn in *; lra || lia. Qed.
Lemma good4 n lo hi : (n = 3 \/ n = 2)%nat -> (length (bc_tuple lo) <= n - 1)%nat -> (length (bc_tuple hi) <= n - 1)%nat ->
  (count_some (bc_tuple lo) + count_some (bc_tuple hi) <= n - 1)%nat ->
  bfit 1 (bc_tuple lo) -> bfit 1 (bc_tuple hi) -> good_args x4 y4 n lo hi.
Proof. intros H H1 H2 H3 H4 H5. repeat split; auto; cbn; lia. Qed.
Definition slope (v : R) : bcarg := BcOne (Some (scalar v)).
Lemma slope_fit v : bfit 1 (bc_tuple (slope v)).
Proof. intros b [E|[]]. injection E as <-. reflexivity. Qed.
(* test_pw.py:204-209: slopes 1 and 2 given at the ends of a cubic spline *)
Example C53_case : exists p F g, gspl x4 y4 3 (slope 1) (slope 2) false ExNone = Ok p /\
  (forall t, pw_call p [] t = Ok (F t)) /\ derivs_upto 2 F g /\
  F (-1) = 1 /\ F 0 = 1 /\ F 2 = -3 /\ F 3 = 5.
Proof.
  destruct gauss_meets_specs as (G1 & G2 & G3 & G4).
  destruct (proj2 (C53_cubic_succeeds inv_wit gbanded gdense G1 3 x4 y4 (slope 1) (slope 2) ExNone G3 (or_intror eq_refl) x4_incr)) as [p E].
  { apply good4; auto; try apply slope_fit; cbn; lia. }
  assert (H23 : (2 <= 3)%nat) by lia. assert (Hb : inb [] (ysh y4)) by constructor.
  destruct (C53_spline inv_wit gbanded gdense G1 3 x4 y4 (slope 1) (slope 2) ExNone p 2 2 [] H23 x4_incr eq_refl E Hb)
    as (F & g & Q & A1 & A2 & A3 & A4 & A5 & A6).
  destruct (C55_extrap inv_wit gbanded gdense G1 3 x4 y4 (slope 1) (slope 2) ExNone p 2 2 [] H23 x4_incr eq_refl E Hb)
    as (F' & g' & Q' & dl & dr & B1 & _ & _ & _ & _ & _ & _ & _ & _ & _ & B11).
  assert (FE : forall t, F t = F' t) by (intros t; specialize (A1 t); specialize (B1 t); congruence).
  exists p, F', g'. split; [exact E|]. split; [exact B1|]. split; [apply B11; cbn; lia|].
  rewrite <- !FE. split; [|split; [|split]].
  - apply (A4 0%nat); [cbn; lia|right; lia].
  - apply (A4 1%nat); [cbn; lia|left; lia].
  - apply (A4 2%nat); [cbn; lia|left; lia].
  - apply (A4 3%nat); [cbn; lia|left; lia].
Qed.
(* default conditions of a cubic: zero second derivatives, lo[1] and hi[1] *)
Example C54_case_filled : filled 3 [] [] [None; zero_bc] [None; zero_bc].
Proof.
  intros [i b]. cbn [count_some filter length Nat.add Nat.sub slots]. change (free_slots [] [] _) with [(1%nat, false); (1%nat, true); (0%nat, false); (0%nat, true)].
  cbn [firstn Nat.sub]. unfold getslot. split.
  - intros [E|[E|[]]]; injection E as <- <-; reflexivity.
  - intros N. destruct i as [|[|i]]; destruct b; cbn; try reflexivity; try (exfalso; apply N; cbn; auto; fail);
      destruct i; reflexivity.
Qed.
Example C54_case_over : forall extrap,
  gspl x4 y4 3 (BcTuple [Some (scalar 1); Some (scalar 0)]) (slope 2) false extrap = Err IndexError /\
  gspl x4 y4 3 (BcTuple [Some (scalar 1); None; None]) (slope 2) false extrap = Err TypeError.
Proof.
  intros extrap. split; apply (C54_overspecified inv_wit gbanded gdense 3 x4 y4); try exact x4_incr; cbn; try lia; reflexivity.
Qed.
(* extrap=-1 (documented as a degree to maintain continuity; gives zero outside) loses the
   first data point: the knot x[0] belongs to the piece below it. *)
Theorem C53_extrap_minus1_refuted : exists p, gspl x4 y4 3 (BcTuple []) (BcTuple []) false (ExInt (-1)) = Ok p /\
  pw_call p [] (nth 0 x4 0) = Ok 0 /\ yval y4 [] 0 = 1.
Proof.
  destruct gauss_meets_specs as (G1 & G2 & G3 & G4).
  destruct (C53_natural_succeeds inv_wit gbanded gdense G1 2 x4 y4 (ExInt (-1)) G3 (le_n 2) x4_incr ltac:(cbn; lia) eq_refl ltac:(cbn; lia)) as [p E].
  exists p. split; [exact E|]. split; [|reflexivity].
  assert (H23 : (2 <= 3)%nat) by lia. assert (Hb : inb [] (ysh y4)) by constructor.
  destruct (C55_extrap inv_wit gbanded gdense G1 3 x4 y4 _ _ (ExInt (-1)) p (-1) (-1) [] H23 x4_incr eq_refl E Hb)
    as (F & g & Q & dl & dr & B1 & _ & _ & _ & _ & _ & _ & _ & B9 & _). rewrite B1. f_equal. apply B9; [reflexivity|lra].
Qed.
Example C56_case : exists p F g, gspl x4 y4 3 (BcTuple []) (BcTuple []) true ExNone = Ok p /\
  (forall t, pw_call p [] t = Ok (F t)) /\ derivs_upto 2 F g /\ F 3 = 1 /\ F 2 = -3 /\ F 6 = -3.
Proof.
  destruct gauss_meets_specs as (G1 & G2 & G3 & G4). assert (H2 : (2 <= length x4)%nat) by (cbn; lia).
  destruct (C56_odd_succeeds inv_wit gbanded gdense G1 G2 2 x4 y4 G3 G4 (le_n 2) x4_incr H2 eq_refl ltac:(cbn; lia)) as [p E].
  assert (H23 : (2 <= 3)%nat) by lia. assert (Hb : inb [] (ysh y4)) by constructor.
  destruct (C56_periodic inv_wit gbanded gdense G1 G2 3 x4 y4 p [] H23 x4_incr H2 eq_refl ltac:(cbn; lia) E Hb)
    as (F & g & Q & A1 & A2 & A3 & A4 & A5 & A6 & A7).
  assert (F2 : F 2 = -3) by (apply (A4 2%nat); cbn; lia).
  exists p, F, g. split; [exact E|]. split; [exact A1|]. split; [exact A6|]. split; [exact A5|]. split; [exact F2|].
  rewrite <- F2, <- (A2 2). f_equal. cbn. ring.
Qed.
Definition gpline := pline inv_wit gbanded gdense.
Example C57_case : exists p, gpline x4 y4 ExNone false = Ok p /\
  pw_call p [] 1 = Ok (-1) /\ pw_call p [] (-7) = Ok 1 /\ pw_call p [] 9 = Ok 5.
Proof.
  destruct (C57_pline inv_wit gbanded gdense inv_spec_nonvacuous x4 y4 ExNone 0 0 x4_incr ltac:(cbn; lia) eq_refl ltac:(cbn; lia) eq_refl)
    as (p & E & H). exists p. split; [exact E|]. destruct (H [] (Forall2_nil _)) as (A & B & C').
  split; [|split].
  - rewrite (A 1%nat) by (try (cbn; lia); try (left; lia); cbn; lra). f_equal. unfold seg. cbn. field.
  - destruct (B (-7)) as [B1 _]; [cbn; lra|]. apply B1. reflexivity.
  - destruct (C' 9) as [B1 _]; [cbn; lra|]. apply B1. reflexivity.
Qed.
Example C57_case_decreasing : gpline (rev x4) (yrev y4) (ExPair 1 0) false = gpline (rev (rev x4)) (yrev (yrev y4)) (ExPair 0 1) false.
Proof. apply (C57_decreasing inv_wit gbanded gdense (rev x4) (yrev y4) (ExPair 1 0)); [cbn; lia|]. unfold decr. rewrite rev_involutive. exact x4_incr. Qed.

Print Assumptions C53_spline.
Print Assumptions C53_cubic_succeeds.
Print Assumptions C53_natural_succeeds.
Print Assumptions C54_boundary.
Print Assumptions C55_extrap.
Print Assumptions C56_periodic.
Print Assumptions C56_odd_succeeds.
Print Assumptions C57_pline.
Print Assumptions C57_periodic.
Print Assumptions C61_binomial_table.
