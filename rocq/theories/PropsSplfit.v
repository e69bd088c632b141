(* C59, C81: splfit returns the constrained least squares spline (npplus/pwpoly.py:1132-1375);
   the meaning of its cost values. *)
From Coq Require Import List Arith ZArith Lia Bool Reals Lra.
From Verif Require Import Num PyBase NdArray NdLemmas Poly SpecPoly PolyProofs PwPoly PwBase PwDeriv PwCtor PropsCtor RSum SolvePer SolveProofs Gauss PropsSolve Spline
  SplineProofs SplineCore SplineSolve SplineFacts PropsSpline RunTests Fit RunFit FitProofs FitSetup PropsFit SplfitMat SplfitProofs SplfitSolve SplfitRow.
Import ListNotations.
Local Open Scope R_scope.

(* --- specification -------------------------------------------------------------------------------- *)
(* F is on [K q, K (q+1)] the polynomial in t - K q with the n+1 coefficients Q q *)
Definition pieces_on (n : nat) (K : list R) (Q : nat -> list R) (F : R -> R) : Prop :=
  forall q, (S q < length K)%nat -> length (Q q) = S n /\
    forall t, nth q K 0 <= t <= nth (S q) K 0 -> F t = peval (Q q) (t - nth q K 0).
(* the polynomials c at t and c' at t' have the same derivatives of order 0..m *)
Definition joined (m : nat) (c : list R) (t : R) (c' : list R) (t' : R) : Prop :=
  forall k, (k <= m)%nat -> exists v, nderiv_at k (peval c) t v /\ nderiv_at k (peval c') t' v.
(* F is a piecewise polynomial of degree n with nc continuous derivatives *)
Definition spline_on (n nc : nat) (K : list R) (Q : nat -> list R) (F : R -> R) : Prop :=
  pieces_on n K Q F /\
  forall q, (S (S q) < length K)%nat -> joined nc (Q q) (nth (S q) K 0 - nth q K 0) (Q (S q)) 0.
(* the same, with period T = K[-1] - K[0] *)
Definition spline_per (n nc : nat) (K : list R) (Q : nat -> list R) (F : R -> R) : Prop :=
  spline_on n nc K Q F /\ periodic (nth (length K - 1) K 0 - nth 0 K 0) F /\
  joined nc (Q (length K - 2)%nat) (nth (length K - 1) K 0 - nth (length K - 2) K 0) (Q 0%nat) 0.
(* c has at t the value and derivatives (over m!) listed in bc *)
Definition bc_met (bc : list (nd R)) (comp : list nat) (c : list R) (t : R) : Prop :=
  forall m, (m < length bc)%nat -> nderiv_at m (peval c) t (INR (fact m) * bget (nth m bc (full [] 0)) comp).
(* as pieces_on, but F is free to jump at the knots; at a knot it has the value of the interval
   before it (the first knot belongs to the first interval) *)
Definition steps_on (n : nat) (K : list R) (Q : nat -> list R) (F : R -> R) : Prop :=
  on_pieces n K F Q /\ F (nth 0 K 0) = peval (Q 0%nat) 0.
(* the same for period T = K[-1] - K[0], where K[-1] has the value of K[0] *)
Definition steps_per (n : nat) (K : list R) (Q : nat -> list R) (F : R -> R) : Prop :=
  (forall q, (S q < length K)%nat -> length (Q q) = S n /\
     forall t, nth q K 0 < t <= nth (S q) K 0 -> t < nth (length K - 1) K 0 -> F t = peval (Q q) (t - nth q K 0)) /\
  F (nth 0 K 0) = peval (Q 0%nat) 0 /\ periodic (nth (length K - 1) K 0 - nth 0 K 0) F.
(* the degree of continuity asked for *)
Definition sp_nc (n : nat) (nc : option Z) : Z := match nc with None => (Z.of_nat n - 1)%Z | Some c => c end.
Definition sp_ex (nc : Z) (ex : exarg) : Z * Z := match ex with ExNone => (nc, nc) | ExInt e => (e, e) | ExPair e f => (e, f) end.

(* the first nb Taylor coefficients of c at t are those of b *)
Definition taylor_is (nb : nat) (c : list R) (t : R) (b : nat -> R) : Prop :=
  forall m, (m < nb)%nat -> nderiv_at m (peval c) t (INR (fact m) * b m).
(* only the zero spline vanishes at X 0 .. X (N-1) and, with its first nlo and nhi derivatives, at the ends *)
Definition determined (n nc : nat) (K : list R) (N : nat) (X : nat -> R) (nlo nhi : nat) : Prop :=
  forall Q F, spline_on n nc K Q F -> taylor_is nlo (Q 0%nat) 0 (fun _ => 0) ->
    taylor_is nhi (Q (length K - 2)%nat) (nth (length K - 1) K 0 - nth (length K - 2) K 0) (fun _ => 0) ->
    (forall t, (t < N)%nat -> F (X t) = 0) -> forall k p, (S k < length K)%nat -> nth p (Q k) 0 = 0.
(* every choice of end values is met by some spline *)
Definition attainable (n nc : nat) (K : list R) (nlo nhi : nat) : Prop :=
  forall a b, exists Q F, spline_on n nc K Q F /\ taylor_is nlo (Q 0%nat) 0 a /\
    taylor_is nhi (Q (length K - 2)%nat) (nth (length K - 1) K 0 - nth (length K - 2) K 0) b.
(* every interval contains n+1 different points *)
Definition dense_points (n : nat) (K : list R) (N : nat) (X : nat -> R) : Prop :=
  forall q, (S q < length K)%nat -> exists z : nat -> R, (forall i, (i < S n)%nat -> nth q K 0 <= z i <= nth (S q) K 0) /\
    (forall i j, (i < j < S n)%nat -> z i <> z j) /\ (forall i, (i < S n)%nat -> exists t, (t < N)%nat /\ X t = z i).

(* --- from the specification to Taylor coefficients -------------------------------------------------- *)
Lemma nderiv_at_tay m c t v : nderiv_at m (peval c) t v -> v = INR (fact m) * tay m c t.
Proof. intros (g & H & <-). apply (nderiv_unique m _ _ _ H (nderiv_tay m c)). Qed.
Lemma joined_tay m c t c' : joined m c t c' 0 <-> forall k, (k <= m)%nat -> tay k c t = nth k c' 0.
Proof.
  split.
  - intros H k Hk. destruct (H k Hk) as (v & V1 & V2). apply nderiv_at_tay in V1, V2. rewrite V1, tay_at_0 in V2.
    apply Rmult_eq_reg_l in V2; auto. apply INR_fact_neq_0.
  - intros H k Hk. exists (INR (fact k) * tay k c t). split; apply nderiv_at_peval; [reflexivity|]. rewrite tay_at_0, (H k Hk). reflexivity.
Qed.
Lemma bc_met_tay bc comp c t : bc_met bc comp c t <-> forall m, (m < length bc)%nat -> tay m c t = bget (nth m bc (full [] 0)) comp.
Proof.
  split; intros H m Hm.
  - specialize (H m Hm). apply nderiv_at_tay in H. apply Rmult_eq_reg_l in H; auto. apply INR_fact_neq_0.
  - apply nderiv_at_peval. rewrite H by auto. reflexivity.
Qed.
Lemma taylor_is_tay nb c t b : taylor_is nb c t b <-> forall m, (m < nb)%nat -> tay m c t = b m.
Proof.
  split; intros H m Hm.
  - specialize (H m Hm). apply nderiv_at_tay in H. apply Rmult_eq_reg_l in H; auto. apply INR_fact_neq_0.
  - apply nderiv_at_peval. rewrite H by auto. reflexivity.
Qed.
Lemma dxs_sub (K : list R) q : dxs K q = nth (S q) K 0 - nth q K 0.
Proof. reflexivity. Qed.
Lemma dxs_last (K : list R) : (2 <= length K)%nat -> dxs K (length K - 1 - 1) = nth (length K - 1) K 0 - nth (length K - 2) K 0.
Proof. intros H. rewrite dxs_sub. replace (S (length K - 1 - 1)) with (length K - 1)%nat by lia. replace (length K - 1 - 1)%nat with (length K - 2)%nat by lia. reflexivity. Qed.
Lemma spline_on_smooth n nc K Q F : spline_on n nc K Q F -> smoothQ K n nc Q.
Proof.
  intros [H1 H2]. split.
  - intros k Hk. destruct (H1 k Hk) as [L _]. lia.
  - intros k m Hk Hm. rewrite dxs_sub. apply (proj1 (joined_tay _ _ _ _) (H2 k Hk)). auto.
Qed.
(* the function with given pieces *)
Definition qfun (K : list R) (Q : nat -> list R) (t : R) : R := peval (Q (fit_ix K t)) (t - nth (fit_ix K t) K 0).
Lemma qfun_spline n nc K Q : incr K -> (2 <= length K)%nat -> smoothQ K n nc Q -> spline_on n nc K Q (qfun K Q).
Proof.
  intros Hi HK [H1 H2]. split.
  - intros q Hq. split; [rewrite H1 by auto; lia|]. intros t Ht. destruct (fit_ix_bounds K t Hi HK) as [A B].
    + pose proof (incr_le K 0 q Hi ltac:(lia)). pose proof (incr_le K (S q) (length K - 1) Hi ltac:(lia)). lra.
    + unfold qfun. set (r := fit_ix K t) in *. clearbody r. destruct (Nat.lt_trichotomy q r) as [L|[->|L]]; [|reflexivity|].
      * assert (E : nth (S q) K 0 = nth r K 0) by (pose proof (incr_le K (S q) r Hi ltac:(lia)); lra).
        assert (r = S q) as ->. { destruct (Nat.eq_dec (S q) r); auto. pose proof (incr_lt K (S q) r Hi ltac:(lia)). lra. }
        assert (t = nth (S q) K 0) as -> by lra. replace (nth (S q) K 0 - nth (S q) K 0) with 0 by ring. rewrite peval_0, <- H2 by lia. rewrite tay_0, dxs_sub. reflexivity.
      * assert (E : nth (S r) K 0 = nth q K 0) by (pose proof (incr_le K (S r) q Hi ltac:(lia)); lra).
        assert (q = S r) as ->. { destruct (Nat.eq_dec (S r) q); auto. pose proof (incr_lt K (S r) q Hi ltac:(lia)). lra. }
        assert (t = nth (S r) K 0) as -> by lra. replace (nth (S r) K 0 - nth (S r) K 0) with 0 by ring. rewrite peval_0, <- H2 by lia. rewrite tay_0, dxs_sub. reflexivity.
  - intros q Hq. apply joined_tay. intros k Hk. rewrite <- dxs_sub. apply H2; auto.
Qed.

Section Splfit.
  Variable sb : nat -> nat -> arr2 R -> arr2 R -> res (arr2 R).
  Variable s : arr2 R -> arr2 R -> res (arr2 R).
  Hypothesis Hsb : banded_spec sb.

  (* --- what a successful splfit_solve says ----------------------------------------------------------- *)
  Section Data.
    Variables (xk : list R) (x y : nd R) (sigy : option (nd R)) (lo hi : list (nd R)) (ysh us : list nat) (n : nat) (nc : option Z).
    Hypothesis Hsz : size ysh <> 0%nat.
    Let m := Z.to_nat (sp_nc n nc).
    Definition solved (K : list R) (x' : nd R) (per : bool) (ex : exarg) (f : @sfit R) : Prop :=
      (0 <= sp_nc n nc < Z.of_nat n)%Z /\ (length lo <= m + 1)%nat /\ (length hi <= m + 1)%nat /\
      sk f = K /\ snc f = m /\ sex f = sp_ex (sp_nc n nc) ex /\ (length ysh <= 1)%nat /\ rel2 x' y sigy lo hi ysh us (sd f) K /\
      forall comp, inb comp ysh -> splfit_row sb s K (sd f) n m per (ravel ysh comp) = Ok (nth (ravel ysh comp) (ssol f) (fun _ => 0)).
    Lemma solve_core K x' per ex f : conform x' y sigy lo hi ysh us ->
      bind (fit_args K x' y sigy lo hi) (fun d =>
        let! nc := match nc with
               | None => Ok (Z.of_nat n - 1)%Z
               | Some c => if (c <? 0)%Z || (Z.of_nat n <=? c)%Z then Err ValueError else Ok c
               end in
        if (1 + nc <? Z.of_nat (Nat.max (length lo) (length hi)))%Z then Err ValueError else
        if (nc <? 0)%Z then Err IndexError else
        let ex := match ex with ExNone => (nc, nc) | ExInt e => (e, e) | ExPair e f => (e, f) end in
        let! c := mapM (splfit_row sb s K d n (Z.to_nat nc) per) (seq 0 (fm d)) in
        Ok (SFit K d (Z.to_nat nc) ex c))%res = Ok f -> solved K x' per ex f.
    Proof using Hsz.
      intros Hcf' E. apply bind_ok in E as (d & Ed & E). apply bind_ok in E as (z & Ez & E).
      assert (Z1 : z = sp_nc n nc /\ (z < Z.of_nat n)%Z).
      { unfold sp_nc. destruct nc as [c|]; [|injection Ez as <-; lia].
        destruct (Z.ltb_spec c 0); [discriminate|]. destruct (Z.leb_spec (Z.of_nat n) c); [discriminate|]. injection Ez as <-. auto. }
      destruct Z1 as [-> Z1]. destruct (Z.ltb_spec (1 + sp_nc n nc) (Z.of_nat (Nat.max (length lo) (length hi)))) as [|Z2]; [discriminate|].
      destruct (Z.ltb_spec (sp_nc n nc) 0) as [|Z3]; [discriminate|]. apply bind_ok in E as (c & Ec & E). injection E as <-.
      destruct (args_rel x' y sigy lo hi ysh us Hcf' Hsz K d Ed) as (Ly & R). unfold solved. cbn [sk snc sex sd ssol]. fold m in Ec |- *.
      split; [lia|]. split; [unfold m; lia|]. split; [unfold m; lia|]. split; [reflexivity|]. split; [reflexivity|]. split; [reflexivity|].
      split; [exact Ly|]. split; [exact R|]. intros comp Hb. pose proof (ravel_lt _ _ Hb) as Hr.
      destruct R as (_ & EM & _). pose proof (mapM_nth _ _ _ (ravel ysh comp) 0%nat (fun _ => 0) Ec) as Q. rewrite seq_length in Q.
      specialize (Q ltac:(lia)). rewrite seq_nth in Q by lia. exact Q.
    Qed.
    Hypothesis Hxk : incr xk.
    Hypothesis Lxk : (2 <= length xk)%nat.
    Hypothesis Hcf : conform x y sigy lo hi ysh us.
    Lemma solve_np ex f : splfit_solve sb s xk x y sigy n nc lo hi false ex = Ok f ->
      exists K, fit_knots (datum x) xk K /\ solved K x false ex f.
    Proof using Hxk Lxk Hcf Hsz.
      intros E. unfold splfit_solve in E.
      assert (Sx : size (shp x) <> 0%nat).
      { intros Z. unfold fit_setup in E. cbn [andb] in E. destruct (Nat.ltb_spec (length xk) 2); [lia|]. rewrite incr_ends in E by auto.
        pose proof (flat_length x) as L. rewrite Z in L. destruct (flat x); [|discriminate L]. discriminate E. }
      apply bind_ok in E as (r & E1 & E2). destruct (fit_setup_np xk x lo hi ex Hxk Lxk Sx) as [A1 A2].
      assert (GK : exists K, fit_knots (datum x) xk K /\ r = (K, x, lo, hi, ex)).
      { destruct A2 as (K & HK & EK).
        - destruct lo; [right; reflexivity|left]. intros v Dv. apply Rnot_lt_le. intros L. rewrite A1 in E1; [discriminate|].
          left. split; [exists v; auto|discriminate].
        - destruct hi; [right; reflexivity|left]. intros v Dv. apply Rnot_lt_le. intros L. rewrite A1 in E1; [discriminate|].
          right. split; [exists v; auto|discriminate].
        - exists K. rewrite E1 in EK. injection EK as ->. auto. }
      destruct GK as (K & HK & ->). exists K. split; [exact HK|]. apply solve_core; auto.
    Qed.
  End Data.

  (* --- the returned object -------------------------------------------------------------------------- *)
  Lemma sf_size n f (ysh : list nat) (K : list R) : fm (sd f) = size ysh -> fysh (sd f) = ysh ->
    ((n + 1) * fm (@sd R f) * (length K + 1) =? size ((n + 1)%nat :: fysh (sd f) ++ [length K + 1]))%nat = true.
  Proof using. intros -> ->. apply Nat.eqb_eq. change (size (?a :: ?l)) with (a * size l)%nat. rewrite size_app'. cbn. lia. Qed.
  Definition fcols (f : @sfit R) (n : nat) (st : nat) (ysh : list nat) (comp : list nat) (k : nat) : list R :=
    sf_col (sk f) n (snc f) st (nth (ravel ysh comp) (ssol f) (fun _ => 0)) k.
  Lemma pw_np n f K ysh e g : sk f = K -> incr K -> (2 <= length K)%nat -> fm (sd f) = size ysh -> fysh (sd f) = ysh -> sex f = (e, g) ->
    exists p, splfit_pw n false f = Ok p /\ spl_result n K ysh e g (fcols f n (length (flo (sd f))) ysh) p.
  Proof using.
    intros EK HK LK EM ES EX. unfold splfit_pw. rewrite EX, EK. rewrite (sf_size n f ysh K EM ES). cbn [negb]. rewrite ES.
    match goal with |- context [new Pw K ?c] => set (cc := c) end.
    assert (Cw : carr_wf cc).
    { split; [cbn; lia|]. cbn [cn csh ck ccol cc]. intros comp i Hb Hlt. cbv zeta.
      destruct (i =? 0)%nat, (i =? length K)%nat; rewrite ?zero_tail_len; rewrite ?pshift_length by (intros Q; apply (f_equal (@length R)) in Q; rewrite sf_col_len in Q; cbn in Q; lia); rewrite ?sf_col_len; reflexivity. }
    destruct (rawinit_short Pw K cc Cw) as (r & Er & W & P1 & P2 & P3 & P4 & P5 & _ & P6); auto; try (cbn; lia); try discriminate.
    exists r. split; [exact Er|]. specialize (P6 eq_refl).
    split; [exact W|]. split; [exact P1|]. split; [exact P2|]. split; [exact P3|]. split; [exact P5|]. split; [rewrite P4; cbn; lia|].
    intros comp Hb. rewrite P6. cbn [ccol cc]. cbv zeta. unfold fcols. rewrite EK. split; [|split].
    - rewrite (Nat.eqb_refl 0). destruct (Nat.eqb_spec 0 (length K)); [lia|]. reflexivity.
    - intros q Hq. destruct (Nat.eqb_spec (S q) 0); [lia|]. destruct (Nat.eqb_spec (S q) (length K)); [lia|].
      replace (S q - 1)%nat with q by lia. reflexivity.
    - rewrite Nat.eqb_refl. destruct (Nat.eqb_spec (length K) 0); [lia|].
      replace (length K - 2)%nat with (length K - 1 - 1)%nat by lia. reflexivity.
  Qed.
  Lemma pw_per n f K ysh : sk f = K -> incr K -> (2 <= length K)%nat -> fm (sd f) = size ysh -> fysh (sd f) = ysh ->
    exists p, splfit_pw n true f = Ok p /\ per_result n K ysh (fcols f n 0 ysh) p.
  Proof using.
    intros EK HK LK EM ES. unfold splfit_pw. destruct (sex f) as [e g]. rewrite EK. rewrite (sf_size n f ysh K EM ES). cbn [negb]. rewrite ES.
    match goal with |- context [new Per K ?c] => set (cc := c) end.
    assert (Cw : carr_wf cc).
    { split; [cbn; lia|]. cbn [cn csh ck ccol cc]. intros comp i Hb Hlt.
      destruct (i =? 0)%nat, (i =? length K)%nat; rewrite ?pshift_length by (intros Q; apply (f_equal (@length R)) in Q; rewrite sf_col_len in Q; cbn in Q; lia); rewrite ?sf_col_len; reflexivity. }
    destruct (rawinit_short Per K cc Cw) as (r & Er & W & P1 & P2 & P3 & P4 & P5 & P6 & _); auto; try (cbn; lia).
    exists r. split; [exact Er|].
    split; [exact W|]. split; [exact P1|]. split; [exact P2|]. split; [exact P3|]. split; [exact P5|]. split; [rewrite P4; cbn; lia|].
    intros comp Hb q Hq. rewrite P6 by (cbn; auto; lia). cbn [ccol cc]. unfold fcols. rewrite EK.
    destruct (Nat.eqb_spec (S q) 0); [lia|]. destruct (Nat.eqb_spec (S q) (length K)); [lia|].
    replace (S q - 1)%nat with q by lia. reflexivity.
  Qed.
  Lemma res_pieces n nc K ysh e g cols p comp : (1 <= n)%nat -> (2 <= length K)%nat -> spl_result n K ysh e g cols p -> inb comp ysh -> (0 <= e)%Z ->
    smoothQ K n nc (cols comp) -> spline_on n nc K (cols comp) (pw_val p comp).
  Proof using.
    intros Hn HK HR Hb He [H1 H2]. split.
    - intros q Hq. split; [rewrite H1 by auto; lia|]. intros t Ht. destruct (Rlt_le_dec (nth q K 0) t) as [L|L].
      + apply (sf_piece n K ysh e g cols p comp Hn HK HR Hb); [lia|lra].
      + assert (t = nth q K 0) as -> by lra. replace (nth q K 0 - nth q K 0) with 0 by ring. rewrite peval_0. destruct q as [|q].
        * rewrite (sf_below n K ysh e g cols p comp Hn HK HR Hb) by lra. replace (nth 0 K 0 - nth 0 K 0) with 0 by ring.
          rewrite peval_0, nth_zero_tail by lia. destruct (Z.leb_spec (Z.of_nat 0) e); [reflexivity|lia].
        * assert (KI : incr K) by (eapply sf_inc; exact HR). pose proof (KI q ltac:(lia)).
          rewrite (sf_piece n K ysh e g cols p comp Hn HK HR Hb q) by (lia || lra). rewrite <- H2 by lia. rewrite tay_0, dxs_sub. reflexivity.
    - intros q Hq. apply joined_tay. intros k Hk. rewrite <- dxs_sub. apply H2; auto.
  Qed.
  Lemma res_derivs n nc K ysh e g cols p comp t : (1 <= n)%nat -> (2 <= length K)%nat -> spl_result n K ysh e g cols p -> inb comp ysh ->
    smoothQ K n nc (cols comp) -> nth 0 K 0 < t < nth (length K - 1) K 0 -> derivs_at nc (pder p comp) t.
  Proof using.
    intros Hn HK HR Hb [H1 H2] Ht. assert (EX : pxk p = K) by (eapply sf_xk; exact HR). assert (KI : incr K) by (eapply sf_inc; exact HR).
    assert (M : forall j k, (j < length K)%nat -> t = nth j K 0 -> (k <= nc)%nat -> match_at p comp j k).
    { intros j k Hj E Hk. destruct j as [|q]; [lra|]. destruct (Nat.eq_dec (S q) (length K - 1)) as [E'|]; [rewrite <- E' in Ht; lra|].
      unfold match_at. rewrite (sf_left n K ysh e g cols p Hn HK HR), EX by lia.
      destruct (sf_cols n K ysh e g cols p comp HR Hb) as (_ & C & _). rewrite !C by lia. replace (S q - 1)%nat with q by lia.
      rewrite <- dxs_sub. apply H2; auto; lia. }
    split; intros k Hk.
    - apply pder_dpl; rewrite EX; auto. intros j Hj E. split; apply M; auto; lia.
    - apply pder_cont; rewrite EX; auto.
  Qed.
  Lemma bc_rows i (fl : list (list R)) (v : nat -> R) : (forall m, (m < length fl)%nat -> nth_error (nth m fl []) i = Some (v m)) ->
    exists r, mapM (fun l => of_opt IndexError (nth_error l i)) fl = Ok r /\ forall m, (m < length fl)%nat -> nth m r 0 = v m.
  Proof using.
    revert v; induction fl as [|l fl IH]; intros v H; [exists []; split; [reflexivity|intros m Hm; cbn in Hm; lia]|].
    destruct (IH (fun m => v (S m))) as (r & E & Hr). { intros m Hm. apply (H (S m)). cbn. lia. }
    pose proof (H 0%nat ltac:(cbn; lia)) as H0. cbn [nth] in H0. cbn [mapM]. rewrite H0. cbn [of_opt bind]. rewrite E. cbn [bind].
    exists (v 0%nat :: r). split; [reflexivity|]. intros [|m] Hm; [reflexivity|]. apply Hr. cbn in Hm. lia.
  Qed.
  Lemma fit_ix_left K v : incr K -> (2 <= length K)%nat -> nth 0 K 0 <= v <= nth (length K - 1) K 0 ->
    nth (fit_ix K v) K 0 < v \/ v = nth 0 K 0 /\ fit_ix K v = 0%nat.
  Proof using.
    intros Hi HK Hv. destruct (fit_ix_bounds K v Hi HK Hv) as [A [B C]]. destruct B as [B|B]; [left; exact B|right].
    assert (E : forall q, (q < length K)%nat -> ssearch K (nth q K 0) = q).
    { intros q Hq. apply ssearch_unique; [auto|]. apply in_piece_knot; auto. }
    destruct (fit_ix K v) as [|q] eqn:Eq; [split; auto|]. exfalso. unfold fit_ix in Eq. rewrite <- B, E in Eq by lia. lia.
  Qed.
  (* values at the data: points on a knot count for the interval before it *)
  Lemma chi_Q n K (d : @fdata R) i Q F : (forall t, (t < fN d)%nat -> fix_ d t = fit_ix K (fx d t) /\ nth 0 K 0 <= fx d t <= nth (length K - 1) K 0) ->
    incr K -> (2 <= length K)%nat -> (forall t, (t < fN d)%nat -> fs d i t <> 0) ->
    steps_on n K Q F ->
    (forall t, (t < fN d)%nat -> F (fx d t) = pv K (fix_ d) (fx d) Q t) /\ chi2 (fN d) (fx d) (fy d i) (fs d i) F = chiQ K d i Q.
  Proof using.
    intros HI Hi HK Hs [HF H0]. assert (V : forall t, (t < fN d)%nat -> F (fx d t) = pv K (fix_ d) (fx d) Q t).
    { intros t Ht. destruct (HI t Ht) as [E R]. unfold pv. rewrite E. destruct (fit_ix_bounds K _ Hi HK R) as [A B].
      destruct (fit_ix_left K _ Hi HK R) as [L|[E1 E2]].
      - apply HF; [exact A|lra].
      - rewrite E2, E1, H0. replace (nth 0 K 0 - nth 0 K 0) with 0 by ring. reflexivity. }
    split; [exact V|]. apply rsum_ext. intros t Ht. rewrite V by auto. specialize (Hs t Ht). field. auto.
  Qed.
  Lemma pieces_half n K Q F : incr K -> (2 <= length K)%nat -> pieces_on n K Q F -> steps_on n K Q F.
  Proof using.
    intros Hi HK H. split.
    - intros q Hq. destruct (H q Hq) as [L V]. split; [exact L|]. intros t Ht. apply V. lra.
    - destruct (H 0%nat ltac:(lia)) as [_ V]. rewrite V by (pose proof (Hi 0%nat ltac:(lia)); lra).
      replace (nth 0 K 0 - nth 0 K 0) with 0 by ring. reflexivity.
  Qed.

  Definition cin (c : @costs R) := let 'Costs a _ _ := c in a.
  Definition clo (c : @costs R) := let 'Costs _ a _ := c in a.
  Definition chi (c : @costs R) := let 'Costs _ _ a := c in a.
  (* everything about one component of a fit without period *)
  Definition fit_facts (n nc : nat) (K : list R) (x y : nd R) (sigy : option (nd R)) (lo hi : list (nd R)) (ysh us : list nat)
      (p : pwpoly R) (c : @costs R) (comp : list nat) (F : R -> R) (Q : nat -> list R) (D : nat -> R -> R) : Prop :=
    (forall t, pw_call p comp t = Ok (F t)) /\ spline_on n nc K Q F /\
    ((forall t, D 0%nat t = F t) /\ forall t, nth 0 K 0 < t < nth (length K - 1) K 0 -> derivs_at nc D t) /\
    bc_met lo comp (Q 0%nat) 0 /\ bc_met hi comp (Q (length K - 2)%nat) (nth (length K - 1) K 0 - nth (length K - 2) K 0) /\
    forall Q' G, steps_on n K Q' G ->
      chi2 (size us) (dX x us) (dY y us comp) (dS sigy us comp) G =
      chi2 (size us) (dX x us) (dY y us comp) (dS sigy us comp) F +
      rsum (size us) (fun t => ((G (dX x us t) - F (dX x us t)) / dS sigy us comp t) ^ 2) -
      (rsum (length lo) (fun m => clo c m (ravel ysh comp) * (nth m (Q' 0%nat) 0 - bget (nth m lo (full [] 0)) comp)) +
       rsum (length K - 2) (fun q => rsum (nc + 1) (fun m => cin c m (ravel ysh comp) q * (nth m (Q' (S q)) 0 - tay m (Q' q) (dxs K q)))) +
       rsum (length hi) (fun m => chi c m (ravel ysh comp) *
         (bget (nth m hi (full [] 0)) comp - tay m (Q' (length K - 2)%nat) (dxs K (length K - 2))))).
  Lemma np_core xk x y sigy n nc lo hi ex e g p c ysh us :
    incr xk -> (2 <= length xk)%nat -> conform x y sigy lo hi ysh us -> size ysh <> 0%nat ->
    (forall comp t, inb comp ysh -> (t < size us)%nat -> dS sigy us comp t <> 0) ->
    sp_ex (sp_nc n nc) ex = (e, g) -> (0 <= e)%Z -> splfit_cost sb s xk x y sigy n nc lo hi false ex = Ok (p, c) ->
    (0 <= sp_nc n nc < Z.of_nat n)%Z /\ (Z.of_nat (length lo) <= sp_nc n nc + 1)%Z /\ (Z.of_nat (length hi) <= sp_nc n nc + 1)%Z /\
    exists K, fit_knots (datum x) xk K /\ pxk p = K /\ forall comp, inb comp ysh -> exists F Q D,
      fit_facts n (Z.to_nat (sp_nc n nc)) K x y sigy lo hi ysh us p c comp F Q D.
  Proof using Hsb.
    intros Hxk Lxk Hcf Hsz Hsig He He0 E. unfold splfit_cost in E. apply bind_ok in E as (f & Ef & E). apply bind_ok in E as (p0 & Ep & E).
    injection E as -> <-. destruct (solve_np xk x y sigy lo hi ysh us n nc Hsz Hxk Lxk Hcf ex f Ef) as (K & HK & S1 & S2 & S3 & SK & SN & SE & Ly & R & ROW).
    set (m := Z.to_nat (sp_nc n nc)) in *.
    assert (Hm : (m < n)%nat) by (unfold m; lia). assert (Zm : sp_nc n nc = Z.of_nat m) by (unfold m; lia). clearbody m.
    split; [exact S1|]. split; [lia|]. split; [lia|]. exists K. split; [exact HK|].
    destruct (fit_knots_incr _ _ _ Hxk Lxk HK) as (KI & KL & KR).
    assert (RNG : forall t, (t < size us)%nat -> nth 0 K 0 <= dX x us t <= nth (length K - 1) K 0) by (intros t Ht; apply KR; eapply dX_datum; eauto).
    assert (IX := ix_rel x y sigy lo hi ysh us K (sd f) R KI KL RNG).
    destruct R as (EN & EM & ES & L1 & L2 & FX & FY & BL & BH). rewrite He in SE.
    destruct (pw_np n f K ysh e g SK KI KL EM ES SE) as (p1 & Ep1 & HR). rewrite Ep in Ep1. injection Ep1 as <-.
    split; [apply HR|]. intros comp Hb. set (Q := fcols f n (length (flo (sd f))) ysh comp).
    exists (pw_val p comp), Q, (pder p comp). specialize (ROW comp Hb). set (i := ravel ysh comp) in *. set (X := nth i (ssol f) (fun _ => 0)) in *.
    destruct (bc_rows i (flo (sd f)) (fun m => bget (nth m lo (full [] 0)) comp)) as (lv & Elv & Vlv).
    { intros k Hk. apply BL; [lia|exact Hb]. }
    destruct (bc_rows i (fhi (sd f)) (fun m => bget (nth m hi (full [] 0)) comp)) as (hv & Ehv & Vhv).
    { intros k Hk. apply BH; [lia|exact Hb]. }
    assert (Hlo : (length (flo (sd f)) <= m + 1)%nat) by lia. assert (Hhi : (length (fhi (sd f)) <= m + 1)%nat) by lia.
    assert (HX := row_np sb s K (sd f) n m i Hsb KL Hm Hlo Hhi lv hv Elv Ehv X ROW).
    assert (SM : smoothQ K n m Q) by (unfold Q, fcols; rewrite SK, SN; apply (row_smooth K (sd f) n m i KI KL Hm Hlo Hhi lv hv X HX)).
    assert (LO : forall j, (j < length (flo (sd f)))%nat -> nth j (Q 0%nat) 0 = nth j lv 0) by (unfold Q, fcols; rewrite SK, SN; apply (row_lo K (sd f) n m i KI KL Hm Hlo Hhi lv hv X HX)).
    assert (HI : forall j, (j < length (fhi (sd f)))%nat -> tay j (Q (length K - 1 - 1)%nat) (dxs K (length K - 1 - 1)) = nth j hv 0) by (unfold Q, fcols; rewrite SK, SN; apply (row_hi K (sd f) n m i KI KL Hm Hlo Hhi lv hv X HX)).
    assert (SP : spline_on n m K Q (pw_val p comp)) by (exact (res_pieces n m K ysh e g _ p comp ltac:(lia) KL HR Hb He0 SM)).
    split; [intros t; eapply (sf_call n K ysh e g); exact HR|]. split; [exact SP|].
    split; [split; [intros t; rewrite pder_0; symmetry; eapply sf_F; eauto|intros t Ht; exact (res_derivs n m K ysh e g _ p comp t ltac:(lia) KL HR Hb SM Ht)]|].
    split; [apply bc_met_tay; intros j Hj; rewrite tay_at_0, LO, Vlv by lia; reflexivity|].
    split; [apply bc_met_tay; intros j Hj; rewrite <- dxs_last by lia; replace (length K - 2)%nat with (length K - 1 - 1)%nat by lia; rewrite HI, Vhv by lia; reflexivity|].
    intros Q' G HG. rewrite <- EN.
    assert (EQ : forall t, (t < fN (sd f))%nat -> dX x us t = fx (sd f) t /\ dY y us comp t = fy (sd f) i t /\ dS sigy us comp t = fs (sd f) i t).
    { intros t Ht. rewrite EN in Ht. destruct (FX t Ht) as [-> _]. destruct (FY comp t Hb Ht) as [Q1 Q2]. unfold i. rewrite Q1, Q2. auto. }
    rewrite (chi2_ext _ _ _ _ _ _ _ (pw_val p comp) EQ), (chi2_ext _ _ _ _ _ _ _ G EQ).
    assert (SG : forall t, (t < fN (sd f))%nat -> fs (sd f) i t <> 0).
    { intros t Ht. destruct (EQ t Ht) as (_ & _ & <-). apply Hsig; [auto|lia]. }
    assert (XI : forall t, (t < fN (sd f))%nat -> fix_ (sd f) t = fit_ix K (fx (sd f) t) /\ nth 0 K 0 <= fx (sd f) t <= nth (length K - 1) K 0).
    { intros t Ht. rewrite EN in Ht. destruct (FX t Ht) as [-> ->]. split; [reflexivity|]. apply RNG. exact Ht. }
    destruct (chi_Q n K (sd f) i Q (pw_val p comp) XI KI KL SG (pieces_half n K Q _ KI KL (proj1 SP))) as [V1 C1].
    destruct (chi_Q n K (sd f) i Q' G XI KI KL SG HG) as [V2 C2]. rewrite C1, C2.
    assert (LQ' : forall k, (k < length K - 1)%nat -> length (Q' k) = (n + 1)%nat) by (intros k Hk; destruct HG as [HG _]; destruct (HG k ltac:(lia)) as [-> _]; lia).
    rewrite (row_chi K (sd f) n m i KI KL Hm IX Hlo Hhi lv hv X HX Q' LQ').
    assert (EQQ : sf_col K n m (length (flo (sd f))) X = Q) by (unfold Q, fcols; rewrite SK, SN; reflexivity). rewrite EQQ.
    assert (T0 : rsum (fN (sd f)) (fun t => ((G (dX x us t) - pw_val p comp (dX x us t)) / dS sigy us comp t) ^ 2) =
      rsum (fN (sd f)) (fun t => (fun t0 => 1 / (fs (sd f) i t0 * fs (sd f) i t0)) t *
        ((pv K (fix_ (sd f)) (fx (sd f)) Q' t - pv K (fix_ (sd f)) (fx (sd f)) Q t) * (pv K (fix_ (sd f)) (fx (sd f)) Q' t - pv K (fix_ (sd f)) (fx (sd f)) Q t)))).
    { apply rsum_ext. intros t Ht. destruct (EQ t Ht) as (-> & _ & ->). rewrite V1, V2 by auto. specialize (SG t Ht). field. auto. }
    rewrite T0. clear T0. cbn [clo cin chi splfit_costs]. rewrite SN, SK. fold i. fold X. numR.
    match goal with |- context [rsum (length lo) ?g] => set (g1 := g) end.
    match goal with |- context [rsum (length K - 2) ?g] => set (g2 := g) end.
    match goal with |- context [rsum (length hi) ?g] => set (g3 := g) end.
    rewrite (rsum_ext (length lo) g1 (fun j => (-2) * (np_lam K X j * (nth j (Q' 0%nat) 0 - nth j lv 0)))).
    2:{ intros j Hj. unfold g1. change (match j with 0%nat => 1 | S p' => dxpow (dxs K 0) p' end) with (dxscl K 0 j). rewrite Vlv, dxscl_R by lia. unfold np_lam, X. ring. }
    rewrite (rsum_ext (length K - 2) g2 (fun k => 2 * rsum (m + 1) (fun j => np_mul K n m (length (flo (sd f))) X k j * (tay j (Q' k) (dxs K k) - nth j (Q' (S k)) 0)))).
    2:{ intros k Hk. unfold g2. rewrite <- rsum_scal. apply rsum_ext. intros j Hj. change (match j with 0%nat => 1 | S p' => dxpow (dxs K k) p' end) with (dxscl K k j).
      rewrite dxscl_R. unfold np_mul, X. rewrite !Nat.add_assoc. ring. }
    rewrite (rsum_ext (length hi) g3 (fun j => 2 * (np_mul K n m (length (flo (sd f))) X (length K - 1 - 1) j * (tay j (Q' (length K - 1 - 1)%nat) (dxs K (length K - 1 - 1)) - nth j hv 0)))).
    2:{ intros j Hj. unfold g3. change (match j with 0%nat => 1 | S p' => dxpow (dxs K (length K - 1 - 1)) p' end) with (dxscl K (length K - 1 - 1) j).
      rewrite dxscl_R. rewrite Vhv by lia. replace (length K - 2)%nat with (length K - 1 - 1)%nat by lia. unfold np_mul, X. rewrite !Nat.add_assoc. ring. }
    rewrite !rsum_scal, <- L1, <- L2. replace (length K - 2)%nat with (length K - 1 - 1)%nat by lia. ring.
  Qed.

  Lemma fit_optimal n nc K x y sigy lo hi ysh us p c comp F Q D : incr K -> (2 <= length K)%nat ->
    fit_facts n nc K x y sigy lo hi ysh us p c comp F Q D ->
    forall Q' G, spline_on n nc K Q' G -> bc_met lo comp (Q' 0%nat) 0 -> bc_met hi comp (Q' (length K - 2)%nat) (nth (length K - 1) K 0 - nth (length K - 2) K 0) ->
      chi2 (size us) (dX x us) (dY y us comp) (dS sigy us comp) F <= chi2 (size us) (dX x us) (dY y us comp) (dS sigy us comp) G.
  Proof using.
    intros KI KL (_ & _ & _ & _ & _ & H) Q' G HG B1 B2. rewrite (H Q' G (pieces_half n K Q' G KI KL (proj1 HG))).
    pose proof (proj1 (bc_met_tay _ _ _ _) B1) as T1. pose proof (proj1 (bc_met_tay _ _ _ _) B2) as T2.
    apply spline_on_smooth in HG as [_ SM].
    rewrite (rsum_zero (length lo)) by (intros j Hj; rewrite <- T1, tay_at_0 by auto; ring).
    rewrite (rsum_zero (length K - 2)) by (intros q Hq; apply rsum_zero; intros j Hj; rewrite SM by lia; ring).
    rewrite (rsum_zero (length hi)).
    - match goal with |- _ <= _ + ?a - _ => assert (0 <= a); [|lra] end. apply rsum_nonneg. intros t Ht. apply pow2_ge_0.
    - intros j Hj. rewrite <- T2 by auto. rewrite <- dxs_last by auto. replace (length K - 2)%nat with (length K - 1 - 1)%nat by lia. ring.
  Qed.
  (* Whenever splfit returns: there are 0 <= nc < n continuous derivatives and at most nc+1
     boundary conditions on each side; the knots of the result are the given ones, extended by the
     extreme data; component comp is on them a piecewise polynomial F of degree n, which is nc
     times continuously differentiable and meets the boundary conditions, and no other such
     function has a smaller chi2. *)
  Theorem C59_splfit : forall xk x y sigy n nc lo hi ex e g p ysh us,
    incr xk -> (2 <= length xk)%nat -> conform x y sigy lo hi ysh us -> size ysh <> 0%nat ->
    (forall comp t, inb comp ysh -> (t < size us)%nat -> dS sigy us comp t <> 0) ->
    sp_ex (sp_nc n nc) ex = (e, g) -> (0 <= e)%Z -> splfit sb s xk x y sigy n nc lo hi false ex = Ok p ->
    let c := sp_nc n nc in
    (0 <= c < Z.of_nat n)%Z /\ (Z.of_nat (length lo) <= c + 1)%Z /\ (Z.of_nat (length hi) <= c + 1)%Z /\
    exists K, fit_knots (datum x) xk K /\ pxk p = K /\ forall comp, inb comp ysh -> exists F Q D,
      (forall t, pw_call p comp t = Ok (F t)) /\ spline_on n (Z.to_nat c) K Q F /\
      (forall t, D 0%nat t = F t) /\ (forall t, nth 0 K 0 < t < nth (length K - 1) K 0 -> derivs_at (Z.to_nat c) D t) /\
      let last := (length K - 2)%nat in let dl := nth (length K - 1) K 0 - nth last K 0 in
      bc_met lo comp (Q 0%nat) 0 /\ bc_met hi comp (Q last) dl /\
      forall Q' G, spline_on n (Z.to_nat c) K Q' G -> bc_met lo comp (Q' 0%nat) 0 -> bc_met hi comp (Q' last) dl ->
        chi2 (size us) (dX x us) (dY y us comp) (dS sigy us comp) F <= chi2 (size us) (dX x us) (dY y us comp) (dS sigy us comp) G.
  Proof using Hsb.
    intros xk x y sigy n nc lo hi ex e g p ysh us H1 H2 H3 H4 H5 H6 H7 E c. unfold splfit in E. apply bind_ok in E as (f & Ef & Ep).
    destruct (np_core xk x y sigy n nc lo hi ex e g p (splfit_costs n false f) ysh us H1 H2 H3 H4 H5 H6 H7) as (A1 & A2 & A3 & K & HK & PK & HF).
    { unfold splfit_cost. rewrite Ef. cbn [bind]. rewrite Ep. reflexivity. }
    split; [exact A1|]. split; [exact A2|]. split; [exact A3|]. exists K. split; [exact HK|]. split; [exact PK|].
    destruct (fit_knots_incr _ _ _ H1 H2 HK) as (KI & KL & _).
    intros comp Hb. destruct (HF comp Hb) as (F & Q & D & FF). exists F, Q, D. pose proof (fit_optimal _ _ _ _ _ _ _ _ _ _ _ _ _ _ _ _ KI KL FF) as O.
    destruct FF as (F1 & F2 & [F3 F4] & F5 & F6 & _). repeat (split; [assumption|]). exact O.
  Qed.
  (* The cost values: for every piecewise polynomial G on the knots, continuous or not, chi2 is
     that of the fit, plus a sum of squares, minus the sum of the costs times the jumps of the
     Taylor coefficients: at the first knot from the lo values to G, at the interior knots, and at
     the last knot from G to the hi values.  So the costs are the NEGATIVE of the derivatives of
     the least chi2 with respect to these jumps. *)
  Theorem C81_cost_partial : forall xk x y sigy n nc lo hi ex e g p c ysh us,
    incr xk -> (2 <= length xk)%nat -> conform x y sigy lo hi ysh us -> size ysh <> 0%nat ->
    (forall comp t, inb comp ysh -> (t < size us)%nat -> dS sigy us comp t <> 0) ->
    sp_ex (sp_nc n nc) ex = (e, g) -> (0 <= e)%Z -> splfit_cost sb s xk x y sigy n nc lo hi false ex = Ok (p, c) ->
    splfit sb s xk x y sigy n nc lo hi false ex = Ok p /\
    exists K, fit_knots (datum x) xk K /\ forall comp, inb comp ysh -> exists F,
      (forall t, pw_call p comp t = Ok (F t)) /\
      let nd := Z.to_nat (sp_nc n nc) in
      forall Q' G vlo vl vr vhi, steps_on n K Q' G ->
        taylor_is (length lo) (Q' 0%nat) 0 vlo ->
        (forall q, (S (S q) < length K)%nat -> taylor_is (nd + 1) (Q' q) (nth (S q) K 0 - nth q K 0) (vl q) /\ taylor_is (nd + 1) (Q' (S q)) 0 (vr q)) ->
        taylor_is (length hi) (Q' (length K - 2)%nat) (nth (length K - 1) K 0 - nth (length K - 2) K 0) vhi ->
        let i := ravel ysh comp in
        chi2 (size us) (dX x us) (dY y us comp) (dS sigy us comp) G =
        chi2 (size us) (dX x us) (dY y us comp) (dS sigy us comp) F +
        rsum (size us) (fun t => ((G (dX x us t) - F (dX x us t)) / dS sigy us comp t) ^ 2) -
        (rsum (length lo) (fun m => clo c m i * (vlo m - bget (nth m lo (full [] 0)) comp)) +
         rsum (length K - 2) (fun q => rsum (nd + 1) (fun m => cin c m i q * (vr q m - vl q m))) +
         rsum (length hi) (fun m => chi c m i * (bget (nth m hi (full [] 0)) comp - vhi m))).
  Proof using Hsb.
    intros xk x y sigy n nc lo hi ex e g p c ysh us H1 H2 H3 H4 H5 H6 H7 E. split.
    { unfold splfit_cost in E. unfold splfit. apply bind_ok in E as (f & -> & E). apply bind_ok in E as (p' & E' & E). injection E as <- _. exact E'. }
    destruct (np_core xk x y sigy n nc lo hi ex e g p c ysh us H1 H2 H3 H4 H5 H6 H7 E) as (A1 & A2 & A3 & K & HK & PK & HF).
    exists K. split; [exact HK|]. destruct (fit_knots_incr _ _ _ H1 H2 HK) as (KI & KL & _).
    intros comp Hb. destruct (HF comp Hb) as (F & Q & D & F1 & _ & _ & _ & _ & ID). exists F. split; [exact F1|]. cbv zeta.
    intros Q' G vlo vl vr vhi HG T1 T2 T3. rewrite (ID Q' G HG).
    pose proof (proj1 (taylor_is_tay _ _ _ _) T1) as T1'. pose proof (proj1 (taylor_is_tay _ _ _ _) T3) as T3'.
    match goal with |- ?a + ?b - (?c1 + ?c2 + ?c3) = ?a + ?b - (?d1 + ?d2 + ?d3) => assert (c1 = d1 /\ c2 = d2 /\ c3 = d3) as (-> & -> & ->); [|reflexivity] end.
    split; [|split]; apply rsum_ext.
    - intros m Hm. rewrite <- T1', tay_at_0 by auto. reflexivity.
    - intros q Hq. apply rsum_ext. intros m Hm. destruct (T2 q ltac:(lia)) as [Ta Tb].
      rewrite <- (proj1 (taylor_is_tay _ _ _ _) Ta m Hm), <- (proj1 (taylor_is_tay _ _ _ _) Tb m Hm), tay_at_0. reflexivity.
    - intros m Hm. rewrite <- T3' by auto. rewrite <- dxs_last by auto. replace (length K - 2)%nat with (length K - 1 - 1)%nat by lia. reflexivity.
  Qed.

  (* splfit does return when the solver does for nonsingular matrices, the data determine the
     spline and the boundary values are independent *)
  Theorem C59_exists : forall xk x y sigy n nc lo hi ex ysh us,
    banded_complete sb -> incr xk -> (2 <= length xk)%nat -> conform x y sigy lo hi ysh us -> (length ysh <= 1)%nat -> size ysh <> 0%nat ->
    (forall comp t, inb comp ysh -> (t < size us)%nat -> dS sigy us comp t <> 0) ->
    size (shp x) <> 0%nat ->
    let c := sp_nc n nc in (0 <= c < Z.of_nat n)%Z -> (Z.of_nat (length lo) <= c + 1)%Z -> (Z.of_nat (length hi) <= c + 1)%Z ->
    (forall v, datum x v -> nth 0 xk 0 <= v) \/ lo = [] -> (forall v, datum x v -> v <= nth (length xk - 1) xk 0) \/ hi = [] ->
    (forall K, fit_knots (datum x) xk K -> determined n (Z.to_nat c) K (size us) (dX x us) (length lo) (length hi) /\
       attainable n (Z.to_nat c) K (length lo) (length hi)) ->
    exists p, splfit sb s xk x y sigy n nc lo hi false ex = Ok p.
  Proof using Hsb.
    intros xk x y sigy n nc lo hi ex ysh us Hc Hi Hx Hcf Ly Hsz Hsig Sx c H1 H2 H3 Bl Bh Hdet. unfold splfit, splfit_solve.
    destruct (fit_setup_np xk x lo hi ex Hi Hx Sx) as [_ A2]. destruct (A2 Bl Bh) as (K & HK & EK). rewrite EK. cbn [bind].
    destruct (fit_knots_incr _ _ _ Hi Hx HK) as (KI & KL & KR). destruct (Hdet K HK) as [Det At]. clear Hdet.
    destruct (fit_args_ok K x y sigy lo hi ysh us Hcf Ly Hsz) as (d & Ed & R). rewrite Ed. cbn [bind].
    assert (RNG : forall t, (t < size us)%nat -> nth 0 K 0 <= dX x us t <= nth (length K - 1) K 0) by (intros t Ht; apply KR; eapply dX_datum; eauto).
    assert (IX := ix_rel x y sigy lo hi ysh us K d R KI KL RNG).
    destruct R as (EN & EM & ES & L1 & L2 & FX & FY & BL & BH).
    assert (EC : match nc with None => Ok (Z.of_nat n - 1)%Z | Some c => if (c <? 0)%Z || (Z.of_nat n <=? c)%Z then Err ValueError else Ok c end = Ok c).
    { unfold c, sp_nc in *. destruct nc as [z|]; [|reflexivity]. destruct (Z.ltb_spec z 0); [lia|]. destruct (Z.leb_spec (Z.of_nat n) z); [lia|]. reflexivity. }
    rewrite EC. cbn [bind]. destruct (Z.ltb_spec (1 + c) (Z.of_nat (Nat.max (length lo) (length hi)))); [lia|]. destruct (Z.ltb_spec c 0); [lia|].
    set (m := Z.to_nat c) in *. assert (Hm : (m < n)%nat) by lia.
    assert (Hlo : (length (flo d) <= m + 1)%nat) by lia. assert (Hhi : (length (fhi d) <= m + 1)%nat) by lia.
    assert (ROWS : exists yk, mapM (splfit_row sb s K d n m false) (seq 0 (fm d)) = Ok yk).
    { apply mapM_total. intros i Hr. apply in_seq in Hr. rewrite EM in Hr. destruct Hr as [_ Hr]. cbn in Hr. rewrite <- (ravel_unravel ysh i Hr).
      assert (Hb : inb (unravel ysh i) ysh) by (apply inb_unravel; auto). set (comp := unravel ysh i) in *.
      assert (SG : forall t, (t < fN d)%nat -> fs d (ravel ysh comp) t <> 0).
      { intros t Ht. rewrite EN in Ht. destruct (FY comp t Hb Ht) as [_ Q]. rewrite Q. apply Hsig; auto. }
      destruct (bc_rows (ravel ysh comp) (flo d) (fun m => bget (nth m lo (full [] 0)) comp)) as (lv & Elv & _).
      { intros k Hk. apply BL; [lia|exact Hb]. }
      destruct (bc_rows (ravel ysh comp) (fhi d) (fun m => bget (nth m hi (full [] 0)) comp)) as (hv & Ehv & _).
      { intros k Hk. apply BH; [lia|exact Hb]. }
      apply (row_np_ok sb s K d n m (ravel ysh comp) KL Hm Hlo Hhi lv hv Elv Ehv Hc).
      apply (np_nonsing K n m (fN d) (fix_ d) (fx d) _ KI KL Hm (Hix K d IX) (Hw d (ravel ysh comp) SG) _ _ Hlo Hhi).
      - intros Q HQ Q1 Q2 Z k p Hk. apply (Det Q (qfun K Q)); [apply qfun_spline; auto| | | |lia].
        + apply taylor_is_tay. intros j Hj. rewrite tay_at_0. apply Q1. lia.
        + apply taylor_is_tay. intros j Hj. rewrite <- dxs_last by auto. replace (length K - 2)%nat with (length K - 1 - 1)%nat by lia. apply Q2. lia.
        + intros t Ht. destruct (FX t Ht) as [E1 E2]. rewrite <- EN in Ht. specialize (Z t Ht). unfold pv in Z. rewrite E1, E2 in Z. exact Z.
      - intros a b. destruct (At a b) as (Q & F & HQ & T1 & T2). exists Q. split; [eapply spline_on_smooth; exact HQ|]. split.
        + intros j Hj. rewrite <- tay_at_0. apply (proj1 (taylor_is_tay _ _ _ _) T1). lia.
        + intros j Hj. rewrite dxs_last by auto. replace (length K - 1 - 1)%nat with (length K - 2)%nat by lia. apply (proj1 (taylor_is_tay _ _ _ _) T2). lia. }
    destruct ROWS as (yk & Eyk). fold m. rewrite Eyk. cbn [bind].
    match goal with |- context [splfit_pw n false ?f] => set (ff := f) end.
    destruct (sex ff) as [e g] eqn:SE. destruct (pw_np n ff K ysh e g eq_refl KI KL EM ES SE) as (p & Ep & _). exists p. exact Ep.
  Qed.
  Lemma dense_determined n nc K N X nlo nhi : incr K -> dense_points n K N X -> determined n nc K N X nlo nhi.
  Proof using.
    intros Hi Hd Q F [HP _] _ _ Z k p Hk. destruct (HP k Hk) as [L V]. destruct (Hd k Hk) as (z & Z1 & Z2 & Z3).
    assert (PZ : forall t, peval (Q k) t = 0).
    { intros t. rewrite (poly_zeros (S n) (Q k) (fun i => z i - nth k K 0)); [reflexivity|lia| |].
      - intros i j Hij E. apply (Z2 i j Hij). lra.
      - intros i Hi'. destruct (Z3 i Hi') as (u & Hu & Eu). specialize (Z u Hu). rewrite Eu in Z. rewrite <- V by (apply Z1; auto). exact Z. }
    apply peval_zero_coeffs in PZ. destruct (Nat.lt_ge_cases p (length (Q k))) as [Lp|Lp]; [|apply nth_overflow; auto].
    rewrite Forall_forall in PZ. apply PZ. apply nth_In. exact Lp.
  Qed.
  (* two-point Hermite interpolation *)
  Lemma tay_xpow j c h m : (forall k, (k <= m)%nat -> tay k c h = if (k =? m)%nat then 1 else 0) ->
    forall k, (k <= m)%nat -> tay k (repeat 0 j ++ c) h = if (k =? m)%nat then h ^ j else 0.
  Proof using.
    intros H. induction j as [|j IH]; intros k Hk; [cbn [repeat app pow]; apply H; auto|].
    cbn [repeat app tay pow]. destruct k as [|k].
    - rewrite IH by auto. destruct (0 =? m)%nat; ring.
    - rewrite !IH by lia. destruct (Nat.eqb_spec k m); [lia|]. destruct (Nat.eqb_spec (S k) m); ring.
  Qed.
  Lemma hermite2 n d nlo nhi (a b : nat -> R) : d <> 0 -> (nlo + nhi <= n + 1)%nat ->
    exists c, length c = (n + 1)%nat /\ (forall j, (j < nlo)%nat -> nth j c 0 = a j) /\ (forall m, (m < nhi)%nat -> tay m c d = b m).
  Proof using.
    intros Hd. induction nhi as [|m IH]; intros Hn.
    - exists (map a (seq 0 (n + 1))). split; [rewrite map_length, seq_length; reflexivity|]. split; [|lia].
      intros j Hj. apply (map_seq_nth a). lia.
    - destruct IH as (c & Lc & H1 & H2); [lia|]. set (e0 := repeat 0 nlo ++ tlist m (repeat 0 m ++ [1]) (- d)).
      set (e := e0 ++ repeat 0 (n - m - nlo)).
      assert (Le : length e = (n + 1)%nat) by (unfold e, e0; rewrite !app_length, tlist_length, !repeat_length; lia).
      assert (Te : forall k, (k <= m)%nat -> tay k e d = if (k =? m)%nat then d ^ nlo else 0).
      { intros k Hk. unfold e. rewrite tay_app_zeros. unfold e0. apply (tay_xpow nlo _ d m); auto. intros k' Hk'.
        rewrite tay_tlist by (rewrite mono_len; lia). replace (- d + d) with 0 by ring. apply tay_mono0. }
      set (q := (b m - tay m c d) / d ^ nlo).
      exists (zipw Rplus c (map (Rmult q) e)). assert (Lm : length c = length (map (Rmult q) e)) by (rewrite map_length; lia).
      split; [rewrite zipw_length; lia|]. split.
      + intros j Hj. rewrite <- tay_at_0, tay_add, tay_smul, !tay_at_0, H1 by auto. unfold e, e0. rewrite <- app_assoc, app_nth1 by (rewrite repeat_length; lia).
        rewrite nth_repeat. ring.
      + intros k Hk. rewrite tay_add, tay_smul, Te by (auto; lia). destruct (Nat.eqb_spec k m) as [->|Ek].
        * unfold q. field. apply pow_nonzero. exact Hd.
        * rewrite H2 by lia. ring.
  Qed.
  Lemma few_attainable n nc K nlo nhi : incr K -> (2 <= length K)%nat -> (nc <= n)%nat -> (nlo + nhi <= n + 1)%nat -> attainable n nc K nlo nhi.
  Proof using.
    intros KI KL Hnc Hn a b. set (d := nth (length K - 1) K 0 - nth 0 K 0).
    assert (Hd : d <> 0) by (unfold d; pose proof (incr_lt K 0 (length K - 1) KI ltac:(lia)); lra).
    destruct (hermite2 n d nlo nhi a b Hd Hn) as (c & Lc & H1 & H2).
    set (Q := fun k => tlist n c (nth k K 0 - nth 0 K 0)). exists Q, (qfun K Q). split; [|split].
    - apply qfun_spline; auto. split.
      + intros k _. unfold Q. rewrite tlist_length. lia.
      + intros k m _ Hm. unfold Q. rewrite tay_tlist, tlist_nth by lia. f_equal. rewrite dxs_sub. ring.
    - apply taylor_is_tay. intros j Hj. unfold Q. rewrite tay_tlist by lia. replace (nth 0 K 0 - nth 0 K 0 + 0) with 0 by ring. rewrite tay_at_0. auto.
    - apply taylor_is_tay. intros j Hj. unfold Q. rewrite tay_tlist by lia. rewrite <- H2 by auto. f_equal. unfold d. ring.
  Qed.
  Lemma one_side_attainable n nc K nlo nhi : incr K -> (2 <= length K)%nat -> (nc < n)%nat -> (nlo <= nc + 1)%nat -> (nhi <= nc + 1)%nat ->
    nlo = 0%nat \/ nhi = 0%nat -> attainable n nc K nlo nhi.
  Proof using. intros. apply few_attainable; auto; lia. Qed.


  (* in particular when every interval holds n+1 different points and there are at most n+1
     boundary conditions *)
  Theorem C59_exists_dense : forall xk x y sigy n nc lo hi ex ysh us,
    banded_complete sb -> incr xk -> (2 <= length xk)%nat -> conform x y sigy lo hi ysh us -> (length ysh <= 1)%nat -> size ysh <> 0%nat ->
    (forall comp t, inb comp ysh -> (t < size us)%nat -> dS sigy us comp t <> 0) ->
    size (shp x) <> 0%nat ->
    let c := sp_nc n nc in (0 <= c < Z.of_nat n)%Z -> (Z.of_nat (length lo) <= c + 1)%Z -> (Z.of_nat (length hi) <= c + 1)%Z ->
    (forall v, datum x v -> nth 0 xk 0 <= v) \/ lo = [] -> (forall v, datum x v -> v <= nth (length xk - 1) xk 0) \/ hi = [] ->
    (length lo + length hi <= n + 1)%nat ->
    (forall K, fit_knots (datum x) xk K -> dense_points n K (size us) (dX x us)) ->
    exists p, splfit sb s xk x y sigy n nc lo hi false ex = Ok p.
  Proof using Hsb.
    intros xk x y sigy n nc lo hi ex ysh us Hc Hi Hx Hcf Ly Hsz Hsig Sx c H1 H2 H3 Bl Bh H4 Hd.
    apply (C59_exists xk x y sigy n nc lo hi ex ysh us); auto. intros K HK. destruct (fit_knots_incr _ _ _ Hi Hx HK) as (KI & KL & _).
    split; [apply dense_determined; auto|]. apply few_attainable; auto. unfold c in *. lia.
  Qed.

  (* --- periodic fits ---------------------------------------------------------------------------------- *)
  Hypothesis Hs : dense_spec s.
  Lemma per_res n nc K ysh cols p comp : (1 <= n)%nat -> incr K -> (2 <= length K)%nat -> per_result n K ysh cols p -> inb comp ysh ->
    (forall k, (k < length K - 1)%nat -> length (cols comp k) = (n + 1)%nat) ->
    (forall k m, (k < length K - 1)%nat -> (m <= nc)%nat -> tay m (cols comp k) (dxs K k) = nth m (cols comp ((k + 1) mod (length K - 1))%nat) 0) ->
    spline_per n nc K (cols comp) (pw_val p comp) /\ derivs_upto nc (pw_val p comp) (perg p comp) /\ steps_per n K (cols comp) (pw_val p comp).
  Proof using.
    intros Hn KI KL (W & P1 & P2 & P3 & P4 & P5 & P6) Hb HL HS. set (nk1 := (length K - 1)%nat) in *.
    assert (Hb' : inb comp (csh (pc p))) by (rewrite P3; auto).
    assert (ET : per_len p = nth nk1 K 0 - nth 0 K 0) by (unfold per_len; rewrite P2; reflexivity).
    assert (HT : 0 < per_len p) by (apply per_len_pos; auto).
    assert (RI : forall t, nth 0 K 0 <= t < nth nk1 K 0 -> pw_reduce p t = t).
    { intros t Ht. apply (reduce_unique p _ _ 0 W P1); [ring|]. rewrite P2, ET. lra. }
    assert (PV : forall q t, (q < nk1)%nat -> nth q K 0 < t <= nth (S q) K 0 -> t < nth nk1 K 0 ->
              pw_val p comp t = peval (cols comp q) (t - nth q K 0)).
    { intros q t Hq Ht Hl. rewrite pw_val_base, RI by (pose proof (incr_le K 0 q KI ltac:(unfold nk1 in *; lia)); lra).
      rewrite (base_piece p comp (S q)); [rewrite pxk0_S, P2, P6 by auto; reflexivity|rewrite P2; auto|].
      rewrite P2. apply interval_piece; auto. unfold nk1 in *; lia. }
    assert (V0 : pw_val p comp (nth 0 K 0) = nth 0 (cols comp 0%nat) 0).
    { rewrite pw_val_base, RI by (pose proof (incr_lt K 0 nk1 KI ltac:(unfold nk1; lia)); lra).
      rewrite (base_piece p comp 0); [|rewrite P2; auto|rewrite P2; apply in_piece_knot; auto; lia].
      destruct (wf_per p W P1) as (_ & _ & C). destruct (C comp Hb') as [-> _]. rewrite P6 by (auto; unfold nk1; lia).
      rewrite (wf_first p W), P2. replace (nth 0 K 0 - nth 0 K 0) with 0 by ring. apply peval_0. }
    assert (PT : forall t, pw_val p comp (t + per_len p) = pw_val p comp t).
    { intros t. rewrite !pw_val_base. replace (per_len p) with (IZR 1 * per_len p) at 1 by ring. rewrite reduce_periodic; auto. }
    assert (VN : pw_val p comp (nth nk1 K 0) = nth 0 (cols comp 0%nat) 0).
    { rewrite <- V0, <- (PT (nth 0 K 0)). f_equal. rewrite ET. ring. }
    assert (NX : forall q, (S q < nk1)%nat -> ((q + 1) mod nk1)%nat = S q) by (intros q Hq; rewrite Nat.mod_small; lia).
    assert (NL : ((nk1 - 1 + 1) mod nk1)%nat = 0%nat) by (replace (nk1 - 1 + 1)%nat with nk1 by (unfold nk1; lia); apply Nat.mod_same; unfold nk1; lia).
    assert (PER : periodic (nth nk1 K 0 - nth 0 K 0) (pw_val p comp)) by (intros t; rewrite <- ET; apply PT).
    assert (EL : nth nk1 K 0 - nth (length K - 2) K 0 = dxs K (nk1 - 1)).
    { rewrite dxs_sub. replace (S (nk1 - 1)) with nk1 by (unfold nk1; lia). replace (nk1 - 1)%nat with (length K - 2)%nat by (unfold nk1; lia). reflexivity. }
    split; [|split].
    - split; [split|split].
      + intros q Hq. split; [rewrite HL by (unfold nk1; lia); lia|]. intros t Ht. destruct (Rlt_le_dec (nth q K 0) t) as [L|L].
        * destruct (Rlt_le_dec t (nth nk1 K 0)) as [L'|L']; [apply PV; [unfold nk1; lia|lra|lra]|].
          pose proof (incr_le K (S q) nk1 KI ltac:(unfold nk1; lia)). assert (Eq : S q = nk1).
          { destruct (Nat.eq_dec (S q) nk1); auto. pose proof (incr_lt K (S q) nk1 KI ltac:(unfold nk1 in *; lia)). lra. }
          assert (t = nth nk1 K 0) as -> by lra. rewrite VN. specialize (HS q 0%nat ltac:(lia) ltac:(lia)). rewrite tay_0 in HS.
          replace ((q + 1) mod nk1)%nat with 0%nat in HS by (rewrite <- NL; f_equal; lia). rewrite <- HS, dxs_sub, Eq. reflexivity.
        * assert (t = nth q K 0) as -> by lra. replace (nth q K 0 - nth q K 0) with 0 by ring. rewrite peval_0. destruct q as [|q]; [exact V0|].
          pose proof (KI q ltac:(lia)). pose proof (incr_lt K (S q) nk1 KI ltac:(unfold nk1; lia)). rewrite (PV q) by first [lra|unfold nk1; lia].
          rewrite <- dxs_sub, <- tay_0, HS by (unfold nk1; lia). rewrite NX by (unfold nk1; lia). reflexivity.
      + intros q Hq. apply joined_tay. intros k Hk. rewrite <- dxs_sub, HS by (unfold nk1; lia). rewrite NX by (unfold nk1; lia). reflexivity.
      + exact PER.
      + apply joined_tay. intros k Hk. fold nk1. rewrite EL. replace (length K - 2)%nat with (nk1 - 1)%nat by (unfold nk1; lia).
        rewrite HS by (unfold nk1; lia). rewrite NL. reflexivity.
    - apply perg_smooth; auto.
      + rewrite P2. intros j k Hj Hk. unfold match_at. destruct j as [|q]; [lia|].
        rewrite pxk0_S, P2, !P6 by (auto; unfold nk1; lia). rewrite <- dxs_sub, HS by (unfold nk1; lia). rewrite NX by (unfold nk1; lia). reflexivity.
      + intros k Hk. unfold per_match. rewrite P2. fold nk1. rewrite EL.
        replace nk1 with (S (nk1 - 1)) at 1 by (unfold nk1; lia). rewrite !P6 by (auto; unfold nk1; lia). rewrite HS by (unfold nk1; lia). rewrite NL. reflexivity.
    - split; [|split; [|exact PER]].
      + intros q Hq. split; [rewrite HL by (unfold nk1; lia); lia|]. intros t Ht Hl. apply PV; auto. unfold nk1; lia.
      + rewrite V0, peval_0. reflexivity.
  Qed.
  (* everything about one component of a periodic fit *)
  Definition per_facts (n nc : nat) (K : list R) (x y : nd R) (sigy : option (nd R)) (ysh us : list nat)
      (p : pwpoly R) (c : @costs R) (comp : list nat) (F : R -> R) (Q : nat -> list R) (D : nat -> R -> R) : Prop :=
    (forall t, pw_call p comp t = Ok (F t)) /\ spline_per n nc K Q F /\ derivs_upto nc F D /\
    forall Q' G, steps_per n K Q' G ->
      let nxt q := ((q + 1) mod (length K - 1))%nat in
      chi2 (size us) (dX x us) (dY y us comp) (dS sigy us comp) G =
      chi2 (size us) (dX x us) (dY y us comp) (dS sigy us comp) F +
      rsum (size us) (fun t => ((G (dX x us t) - F (dX x us t)) / dS sigy us comp t) ^ 2) -
      rsum (length K - 1) (fun q => rsum (nc + 1) (fun m =>
        cin c m (ravel ysh comp) q * (dxs K q / dxs K (nxt q)) ^ m * (nth m (Q' (nxt q)) 0 - tay m (Q' q) (dxs K q)))).
  Lemma per_core xk x y sigy n nc p c ysh us :
    incr xk -> (2 <= length xk)%nat -> conform x y sigy [] [] ysh us -> size ysh <> 0%nat ->
    (forall comp t, inb comp ysh -> (t < size us)%nat -> dS sigy us comp t <> 0) ->
    splfit_cost sb s xk x y sigy n nc [] [] true ExNone = Ok (p, c) ->
    (0 <= sp_nc n nc < Z.of_nat n)%Z /\ pxk p = xk /\ (3 <= length xk)%nat /\ forall comp, inb comp ysh -> exists F Q D,
      per_facts n (Z.to_nat (sp_nc n nc)) xk x y sigy ysh us p c comp F Q D.
  Proof using Hsb Hs.
    intros Hi Hx Hcf Hsz Hsig E. unfold splfit_cost in E. apply bind_ok in E as (f & Ef & E). apply bind_ok in E as (p0 & Ep & E).
    injection E as -> <-. unfold splfit_solve in Ef. rewrite fit_setup_per in Ef by auto. cbn [bind] in Ef.
    set (T := nth (length xk - 1) xk 0 - nth 0 xk 0) in Ef.
    set (red := fun v => nmod (v - nth 0 xk 0) T + nth 0 xk 0) in Ef. set (x' := nd_map red x) in Ef.
    assert (HT : 0 < T) by (unfold T; pose proof (incr_lt xk 0 (length xk - 1) Hi ltac:(lia)); lra).
    assert (Hcf' : conform x' y sigy [] [] ysh us) by (destruct Hcf; constructor; auto).
    assert (RX : forall t, dX x' us t = red (dX x us t)) by reflexivity.
    destruct (solve_core y sigy [] [] ysh us n nc Hsz xk x' true ExNone f Hcf' Ef) as (S1 & S2 & S3 & SK & SN & SE & Ly & R & ROW).
    set (m := Z.to_nat (sp_nc n nc)) in *. assert (Hm : (m < n)%nat) by (unfold m; lia). clearbody m.
    split; [exact S1|].
    assert (RNG : forall t, (t < size us)%nat -> nth 0 xk 0 <= dX x' us t < nth (length xk - 1) xk 0).
    { intros t Ht. rewrite RX. destruct (nmod_period (dX x us t) (nth 0 xk 0) T HT) as (k & _ & Q). unfold red, T in *. lra. }
    assert (IX := ix_rel x' y sigy [] [] ysh us xk (sd f) R Hi Hx ltac:(intros t Ht; specialize (RNG t Ht); lra)).
    destruct R as (EN & EM & ES & L1 & L2 & FX & FY & BL & BH).
    destruct (pw_per n f xk ysh SK Hi Hx EM ES) as (p1 & Ep1 & HR). rewrite Ep in Ep1. injection Ep1 as <-.
    split; [apply HR|].
    assert (H3 : (3 <= length xk)%nat).
    { specialize (ROW (unravel ysh 0) (inb_unravel ysh 0 ltac:(lia))). apply (row_per sb s xk (sd f) n m _ Hsb Hx Hm Hs) in ROW. apply ROW. }
    split; [exact H3|]. intros comp Hb. set (Q := fcols f n 0 ysh comp). specialize (ROW comp Hb).
    exists (pw_val p comp), Q, (perg p comp). set (i := ravel ysh comp) in *. set (X := nth i (ssol f) (fun _ => 0)) in *.
    destruct (row_per sb s xk (sd f) n m i Hsb Hx Hm Hs X ROW) as [_ HX].
    assert (EQQ : sf_col xk n m 0 X = Q) by (unfold Q, fcols; rewrite SK, SN; reflexivity).
    assert (SM := row_per_smooth xk (sd f) n m i Hi Hx Hm X HX). rewrite EQQ in SM.
    assert (LQ : forall k, (k < length xk - 1)%nat -> length (Q k) = (n + 1)%nat) by (intros k _; unfold Q, fcols; apply sf_col_len).
    destruct (per_res n m xk ysh (fcols f n 0 ysh) p comp ltac:(lia) Hi Hx HR Hb LQ SM) as (R1 & R2 & R3).
    split; [intros t; apply pw_call_wf; apply HR|]. split; [exact R1|]. split; [exact R2|].
    intros Q' G HG nxt. rewrite <- EN.
    assert (EQ : forall G Q', steps_per n xk Q' G -> forall t, (t < fN (sd f))%nat -> G (dX x us t) = pv xk (fix_ (sd f)) (fx (sd f)) Q' t).
    { intros G' Q1 (G1 & G2 & G3) t Ht. rewrite EN in Ht. destruct (FX t Ht) as [E1 E2]. specialize (RNG t Ht). unfold pv. rewrite E1, E2.
      assert (GR : G' (dX x us t) = G' (dX x' us t)).
      { rewrite RX. destruct (nmod_period (dX x us t) (nth 0 xk 0) T HT) as (k & Qk & _). unfold red. rewrite Qk, (periodic_IZR T G' G3). reflexivity. }
      rewrite GR. destruct (fit_ix_bounds xk (dX x' us t) Hi Hx) as [A B]; [lra|].
      destruct (fit_ix_left xk (dX x' us t) Hi Hx) as [L|[E3 E4]]; [lra| |].
      - apply G1; [exact A|lra|lra].
      - rewrite E4, E3, G2. replace (nth 0 xk 0 - nth 0 xk 0) with 0 by ring. reflexivity. }
    assert (EY : forall t, (t < fN (sd f))%nat -> dY y us comp t = fy (sd f) i t /\ dS sigy us comp t = fs (sd f) i t).
    { intros t Ht. rewrite EN in Ht. destruct (FY comp t Hb Ht) as [Q1 Q2]. unfold i. rewrite Q1, Q2. auto. }
    assert (SG : forall t, (t < fN (sd f))%nat -> fs (sd f) i t <> 0).
    { intros t Ht. destruct (EY t Ht) as (_ & <-). apply Hsig; [auto|lia]. }
    assert (CE : forall G Q', steps_per n xk Q' G -> chi2 (fN (sd f)) (dX x us) (dY y us comp) (dS sigy us comp) G = chiQ xk (sd f) i Q').
    { intros G' Q1 HG'. apply rsum_ext. intros t Ht. rewrite (EQ G' Q1 HG' t Ht). destruct (EY t Ht) as [-> ->]. specialize (SG t Ht). field. auto. }
    rewrite (CE G Q' HG), (CE (pw_val p comp) Q R3).
    assert (LQ' : forall k, (k < length xk - 1)%nat -> length (Q' k) = (n + 1)%nat) by (intros k Hk; destruct HG as [HG _]; destruct (HG k ltac:(lia)) as [-> _]; lia).
    rewrite (row_per_chi xk (sd f) n m i Hi Hx Hm IX X HX Q' LQ'). rewrite EQQ.
    assert (T0 : rsum (fN (sd f)) (fun t => ((G (dX x us t) - pw_val p comp (dX x us t)) / dS sigy us comp t) ^ 2) =
      rsum (fN (sd f)) (fun t => (fun t0 => 1 / (fs (sd f) i t0 * fs (sd f) i t0)) t *
        ((pv xk (fix_ (sd f)) (fx (sd f)) Q' t - pv xk (fix_ (sd f)) (fx (sd f)) Q t) * (pv xk (fix_ (sd f)) (fx (sd f)) Q' t - pv xk (fix_ (sd f)) (fx (sd f)) Q t)))).
    { apply rsum_ext. intros t Ht. rewrite (EQ G Q' HG t Ht), (EQ _ Q R3 t Ht). destruct (EY t Ht) as [_ ->]. specialize (SG t Ht). field. auto. }
    rewrite T0. clear T0. unfold Rminus. f_equal. f_equal. rewrite <- rsum_scal. apply rsum_ext. intros q Hq. rewrite <- rsum_scal. apply rsum_ext. intros j Hj.
    cbn [cin splfit_costs]. rewrite SN, SK. fold i. numR. fold X. fold (nxt q).
    assert (ND : dxs xk (nxt q) ^ j <> 0).
    { apply pow_nonzero. assert (Hn : (nxt q < length xk - 1)%nat) by (apply Nat.mod_upper_bound; lia). rewrite dxs_sub. pose proof (Hi (nxt q) ltac:(lia)). lra. }
    rewrite dxscl_R. unfold Rdiv. rewrite Rpow_mult_distr, pow_inv. unfold per_mul. rewrite Nat.add_0_l, !Nat.add_assoc.
    set (aa := dxs xk (nxt q) ^ j) in *. clearbody aa. field. exact ND.
  Qed.
  (* Whenever a periodic splfit returns: its knots are the given ones, at least 3; component comp
     is a function of period T = xk[-1]-xk[0], piecewise polynomial of degree n with nc
     continuous derivatives everywhere, and no other such function has a smaller chi2 with the
     data as given. *)
  Theorem C59_periodic : forall xk x y sigy n nc p ysh us,
    incr xk -> (2 <= length xk)%nat -> conform x y sigy [] [] ysh us -> size ysh <> 0%nat ->
    (forall comp t, inb comp ysh -> (t < size us)%nat -> dS sigy us comp t <> 0) ->
    splfit sb s xk x y sigy n nc [] [] true ExNone = Ok p ->
    let c := sp_nc n nc in
    (0 <= c < Z.of_nat n)%Z /\ pxk p = xk /\ (3 <= length xk)%nat /\ forall comp, inb comp ysh -> exists F Q D,
      (forall t, pw_call p comp t = Ok (F t)) /\ spline_per n (Z.to_nat c) xk Q F /\ derivs_upto (Z.to_nat c) F D /\
      forall Q' G, spline_per n (Z.to_nat c) xk Q' G ->
        chi2 (size us) (dX x us) (dY y us comp) (dS sigy us comp) F <= chi2 (size us) (dX x us) (dY y us comp) (dS sigy us comp) G.
  Proof using Hsb Hs.
    intros xk x y sigy n nc p ysh us H1 H2 H3 H4 H5 E c. unfold splfit in E. apply bind_ok in E as (f & Ef & Ep).
    destruct (per_core xk x y sigy n nc p (splfit_costs n true f) ysh us H1 H2 H3 H4 H5) as (A1 & A2 & A3 & HF).
    { unfold splfit_cost. rewrite Ef. cbn [bind]. rewrite Ep. reflexivity. }
    split; [exact A1|]. split; [exact A2|]. split; [exact A3|]. intros comp Hb. destruct (HF comp Hb) as (F & Q & D & F1 & F2 & F3 & ID).
    exists F, Q, D. split; [exact F1|]. split; [exact F2|]. split; [exact F3|]. intros Q' G ([HG1 HG2] & HG3 & HG4).
    rewrite (ID Q' G).
    - assert (SM := spline_on_smooth _ _ _ _ _ (conj HG1 HG2)). destruct SM as [_ SM]. pose proof (proj1 (joined_tay _ _ _ _) HG4) as SL.
      rewrite (rsum_zero (length xk - 1)).
      + match goal with |- _ <= _ + ?a - _ => assert (0 <= a); [|lra] end. apply rsum_nonneg. intros t Ht. apply pow2_ge_0.
      + intros q Hq. apply rsum_zero. intros m Hm. destruct (Nat.eq_dec (S q) (length xk - 1)) as [Eq|Eq].
        * replace ((q + 1) mod (length xk - 1))%nat with 0%nat by (rewrite Nat.add_1_r, Eq; symmetry; apply Nat.mod_same; lia).
          rewrite <- SL by lia. replace (length xk - 2)%nat with q by lia. rewrite dxs_sub, Eq. ring.
        * rewrite (Nat.mod_small (q + 1)) by lia. rewrite Nat.add_1_r, SM by lia. ring.
    - split; [|split; [|exact HG3]].
      + intros q Hq. destruct (HG1 q Hq) as [L V]. split; [exact L|]. intros t Ht _. apply V. lra.
      + destruct (HG1 0%nat ltac:(lia)) as [_ V]. rewrite V by (pose proof (H1 0%nat ltac:(lia)); lra). f_equal. ring.
  Qed.
  (* the costs of a periodic fit: the cost of the m-th coefficient at the knot after interval q is,
     besides the sign, off by the factor (dx[q+1]/dx[q])^m *)
  Theorem C81_periodic_partial : forall xk x y sigy n nc p c ysh us,
    incr xk -> (2 <= length xk)%nat -> conform x y sigy [] [] ysh us -> size ysh <> 0%nat ->
    (forall comp t, inb comp ysh -> (t < size us)%nat -> dS sigy us comp t <> 0) ->
    splfit_cost sb s xk x y sigy n nc [] [] true ExNone = Ok (p, c) ->
    splfit sb s xk x y sigy n nc [] [] true ExNone = Ok p /\
    forall comp, inb comp ysh -> exists F, (forall t, pw_call p comp t = Ok (F t)) /\
      let nd := Z.to_nat (sp_nc n nc) in
      let nxt q := ((q + 1) mod (length xk - 1))%nat in
      let dx q := nth (S q) xk 0 - nth q xk 0 in
      forall Q' G vl vr, steps_per n xk Q' G ->
        (forall q, (S q < length xk)%nat -> taylor_is (nd + 1) (Q' q) (dx q) (vl q) /\ taylor_is (nd + 1) (Q' q) 0 (vr q)) ->
        chi2 (size us) (dX x us) (dY y us comp) (dS sigy us comp) G =
        chi2 (size us) (dX x us) (dY y us comp) (dS sigy us comp) F +
        rsum (size us) (fun t => ((G (dX x us t) - F (dX x us t)) / dS sigy us comp t) ^ 2) -
        rsum (length xk - 1) (fun q => rsum (nd + 1) (fun m =>
          cin c m (ravel ysh comp) q * (dx q / dx (nxt q)) ^ m * (vr (nxt q) m - vl q m))).
  Proof using Hsb Hs.
    intros xk x y sigy n nc p c ysh us H1 H2 H3 H4 H5 E. split.
    { unfold splfit_cost in E. unfold splfit. apply bind_ok in E as (f & -> & E). apply bind_ok in E as (p' & E' & E). injection E as <- _. exact E'. }
    destruct (per_core xk x y sigy n nc p c ysh us H1 H2 H3 H4 H5 E) as (A1 & A2 & A3 & HF).
    intros comp Hb. destruct (HF comp Hb) as (F & Q & D & F1 & _ & _ & ID). exists F. split; [exact F1|]. cbv zeta.
    intros Q' G vl vr HG TT. rewrite (ID Q' G HG). cbv zeta. f_equal. apply rsum_ext. intros q Hq. apply rsum_ext. intros m Hm.
    assert (Hn : ((q + 1) mod (length xk - 1) < length xk - 1)%nat) by (apply Nat.mod_upper_bound; lia).
    destruct (TT q ltac:(lia)) as [Ta _]. destruct (TT ((q + 1) mod (length xk - 1))%nat ltac:(lia)) as [_ Tb].
    rewrite <- (proj1 (taylor_is_tay _ _ _ _) Ta m Hm), <- (proj1 (taylor_is_tay _ _ _ _) Tb m Hm), tay_at_0, <- !dxs_sub. reflexivity.
  Qed.
  Lemma red_unique (x0 T v u : R) k : 0 < T -> x0 <= v < x0 + T -> u = v + IZR k * T -> nmod (u - x0) T + x0 = v.
  Proof using.
    intros HT Hv E. destruct (nmod_period u x0 T HT) as (k' & E1 & E2). rewrite E1 in E2 |- *. rewrite E in *.
    assert (Z0 : (k + k' = 0)%Z).
    { assert (Q : -1 < IZR (k + k') < 1).
      { rewrite plus_IZR. split; apply (Rmult_lt_reg_r T); auto; lra. }
      destruct Q as [Q1 Q2]. apply lt_IZR in Q2. apply (lt_IZR (-1)) in Q1. lia. }
    apply (f_equal IZR) in Z0. rewrite plus_IZR in Z0. replace (v + IZR k * T + IZR k' * T) with (v + (IZR k + IZR k') * T) by ring. rewrite Z0. ring.
  Qed.
  Lemma qper_spline n nc K Q : incr K -> (2 <= length K)%nat -> smoothQ K n nc Q ->
    (forall m, (m <= nc)%nat -> tay m (Q (length K - 1 - 1)%nat) (dxs K (length K - 1 - 1)) = nth m (Q 0%nat) 0) ->
    let T := nth (length K - 1) K 0 - nth 0 K 0 in
    spline_per n nc K Q (fun t => qfun K Q (nmod (t - nth 0 K 0) T + nth 0 K 0)).
  Proof using.
    intros KI KL HQ HL T. assert (HT : 0 < T) by (unfold T; pose proof (incr_lt K 0 (length K - 1) KI ltac:(lia)); lra).
    pose proof (qfun_spline n nc K Q KI KL HQ) as [S1 S2]. split; [split|split].
    - intros q Hq. destruct (S1 q Hq) as [L V]. split; [exact L|]. intros t Ht.
      pose proof (incr_le K 0 q KI ltac:(lia)). pose proof (incr_le K (S q) (length K - 1) KI ltac:(lia)).
      destruct (Rlt_le_dec t (nth (length K - 1) K 0)) as [L'|L'].
      + rewrite (red_unique _ T t t 0) by (auto; unfold T; lra). apply V. auto.
      + assert (Eq : S q = (length K - 1)%nat).
        { destruct (Nat.eq_dec (S q) (length K - 1)); auto. pose proof (incr_lt K (S q) (length K - 1) KI ltac:(lia)). lra. }
        assert (t = nth (length K - 1) K 0) as -> by lra. rewrite (red_unique _ T (nth 0 K 0) _ 1) by first [exact HT|lra|unfold T; lra].
        destruct (S1 0%nat ltac:(lia)) as [_ V0]. rewrite V0 by (pose proof (KI 0%nat ltac:(lia)); lra). replace (nth 0 K 0 - nth 0 K 0) with 0 by ring.
        rewrite peval_0, <- HL by lia. rewrite tay_0, dxs_sub. replace (length K - 1 - 1)%nat with q by lia. rewrite Eq. reflexivity.
    - exact S2.
    - intros t. f_equal. destruct (nmod_period t (nth 0 K 0) T HT) as (k & E1 & E2). fold T.
      apply (red_unique _ T _ _ (1 - k)); auto. rewrite E1, minus_IZR. ring.
    - apply joined_tay. intros k Hk. rewrite <- dxs_last by auto. replace (length K - 2)%nat with (length K - 1 - 1)%nat by lia. apply HL. auto.
  Qed.
  (* a periodic splfit returns when it has at least 3 knots, the solvers do for nonsingular
     matrices, only the zero periodic spline vanishes at all data, and only the zero spline
     vanishes at all data mapped into the first period and, with its nc derivatives, at xk[-1] *)
  Theorem C59_periodic_exists : forall xk x y sigy n nc ysh us,
    banded_complete sb -> dense_complete s -> incr xk -> (3 <= length xk)%nat -> conform x y sigy [] [] ysh us -> (length ysh <= 1)%nat -> size ysh <> 0%nat ->
    (forall comp t, inb comp ysh -> (t < size us)%nat -> dS sigy us comp t <> 0) ->
    let c := sp_nc n nc in (0 <= c < Z.of_nat n)%Z ->
    (forall Q F, spline_per n (Z.to_nat c) xk Q F -> (forall t, (t < size us)%nat -> F (dX x us t) = 0) ->
       forall k p, (S k < length xk)%nat -> nth p (Q k) 0 = 0) ->
    (forall X', (forall t, (t < size us)%nat -> nth 0 xk 0 <= X' t < nth (length xk - 1) xk 0 /\
         exists k, X' t = dX x us t + IZR k * (nth (length xk - 1) xk 0 - nth 0 xk 0)) ->
       determined n (Z.to_nat c) xk (size us) X' 0 (Z.to_nat c + 1)) ->
    exists p, splfit sb s xk x y sigy n nc [] [] true ExNone = Ok p.
  Proof using Hsb Hs.
    intros xk x y sigy n nc ysh us C1 C2 Hi H3 Hcf Ly Hsz Hsig c Hc Det1 Det2. assert (Hx : (2 <= length xk)%nat) by lia.
    unfold splfit, splfit_solve. rewrite fit_setup_per by auto. cbn [bind]. set (T := nth (length xk - 1) xk 0 - nth 0 xk 0) in *.
    set (red := fun v => nmod (v - nth 0 xk 0) T + nth 0 xk 0). set (x' := nd_map red x).
    assert (HT : 0 < T) by (unfold T; pose proof (incr_lt xk 0 (length xk - 1) Hi ltac:(lia)); lra).
    assert (Hcf' : conform x' y sigy [] [] ysh us) by (destruct Hcf; constructor; auto).
    assert (RX : forall t, dX x' us t = red (dX x us t)) by reflexivity.
    destruct (fit_args_ok xk x' y sigy [] [] ysh us Hcf' Ly Hsz) as (d & Ed & R). rewrite Ed. cbn [bind].
    assert (RNG : forall t, nth 0 xk 0 <= dX x' us t < nth (length xk - 1) xk 0 /\ exists k, dX x' us t = dX x us t + IZR k * T).
    { intros t. rewrite RX. destruct (nmod_period (dX x us t) (nth 0 xk 0) T HT) as (k & Qk & Q). unfold red, T in *. split; [lra|]. exists k. rewrite Qk. ring. }
    assert (IX := ix_rel x' y sigy [] [] ysh us xk d R Hi Hx ltac:(intros t _; destruct (RNG t) as [Q _]; lra)).
    destruct R as (EN & EM & ES & L1 & L2 & FX & FY & BL & BH).
    assert (EC : match nc with None => Ok (Z.of_nat n - 1)%Z | Some c => if (c <? 0)%Z || (Z.of_nat n <=? c)%Z then Err ValueError else Ok c end = Ok c).
    { unfold c, sp_nc in *. destruct nc as [z|]; [|reflexivity]. destruct (Z.ltb_spec z 0); [lia|]. destruct (Z.leb_spec (Z.of_nat n) z); [lia|]. reflexivity. }
    rewrite EC. cbn [bind]. destruct (Z.ltb_spec (1 + c) (Z.of_nat (Nat.max (length (@nil (nd R))) (length (@nil (nd R)))))) as [Q|_]; [replace (Z.of_nat _) with 0%Z in Q by reflexivity; lia|]. destruct (Z.ltb_spec c 0); [lia|].
    set (m := Z.to_nat c) in *. assert (Hm : (m < n)%nat) by lia. fold m.
    assert (PVQ : forall Q t, (t < fN d)%nat -> pv xk (fix_ d) (fx d) Q t = qfun xk Q (dX x' us t)).
    { intros Q t Ht. rewrite EN in Ht. destruct (FX t Ht) as [E1 E2]. unfold pv, qfun. rewrite E1, E2. reflexivity. }
    assert (ROWS : exists yk, mapM (splfit_row sb s xk d n m true) (seq 0 (fm d)) = Ok yk).
    { apply mapM_total. intros i Hr. apply in_seq in Hr. rewrite EM in Hr. destruct Hr as [_ Hr]. cbn in Hr. rewrite <- (ravel_unravel ysh i Hr).
      assert (Hb : inb (unravel ysh i) ysh) by (apply inb_unravel; auto). set (comp := unravel ysh i) in *.
      assert (SG : forall t, (t < fN d)%nat -> fs d (ravel ysh comp) t <> 0).
      { intros t Ht. rewrite EN in Ht. destruct (FY comp t Hb Ht) as [_ Q]. rewrite Q. apply Hsig; auto. }
      apply (row_per_ok sb s xk d n m (ravel ysh comp) Hsb Hx Hm Hs C1 C2 H3).
      - apply (np_nonsing xk n m (fN d) (fix_ d) (fx d) _ Hi Hx Hm (Hix xk d IX) (Hw d (ravel ysh comp) SG)); [lia|lia| |].
        + intros Q HQ Q1 Q2 Z k p Hk. apply (Det2 (dX x' us) ltac:(intros t _; apply RNG) Q (qfun xk Q)); [apply qfun_spline; auto| | | |lia].
          * intros j Hj. lia.
          * apply taylor_is_tay. intros j Hj. rewrite <- dxs_last by auto. replace (length xk - 2)%nat with (length xk - 1 - 1)%nat by lia. apply Q2. lia.
          * intros t Ht. rewrite <- EN in Ht. rewrite <- PVQ by auto. apply Z. auto.
        + apply surj_one_side; auto; lia.
      - apply (per_nonsing xk n m (fN d) (fix_ d) (fx d) _ Hi Hx Hm (Hix xk d IX) (Hw d (ravel ysh comp) SG)).
        intros Q HQ QL Z k p Hk.
        apply (Det1 Q (fun t => qfun xk Q (nmod (t - nth 0 xk 0) T + nth 0 xk 0))); [apply qper_spline; auto| |lia].
        intros t Ht. rewrite <- EN in Ht. specialize (Z t Ht). rewrite PVQ in Z by auto. exact Z. }
    destruct ROWS as (yk & Eyk). rewrite Eyk. cbn [bind].
    match goal with |- context [splfit_pw n true ?f] => set (ff := f) end.
    destruct (pw_per n ff xk ysh eq_refl Hi Hx EM ES) as (p & Ep & _). exists p. exact Ep.
  Qed.
  (* in particular when the data mapped into the first period include n+1 points of each interval *)
  Theorem C59_periodic_dense : forall xk x y sigy n nc ysh us,
    banded_complete sb -> dense_complete s -> incr xk -> (3 <= length xk)%nat -> conform x y sigy [] [] ysh us -> (length ysh <= 1)%nat -> size ysh <> 0%nat ->
    (forall comp t, inb comp ysh -> (t < size us)%nat -> dS sigy us comp t <> 0) ->
    let c := sp_nc n nc in (0 <= c < Z.of_nat n)%Z ->
    (forall X', (forall t, (t < size us)%nat -> nth 0 xk 0 <= X' t < nth (length xk - 1) xk 0 /\
         exists k, X' t = dX x us t + IZR k * (nth (length xk - 1) xk 0 - nth 0 xk 0)) -> dense_points n xk (size us) X') ->
    exists p, splfit sb s xk x y sigy n nc [] [] true ExNone = Ok p.
  Proof using Hsb Hs.
    intros xk x y sigy n nc ysh us C1 C2 Hi H3 Hcf Ly Hsz Hsig c Hc Hd. apply (C59_periodic_exists xk x y sigy n nc ysh us); auto.
    - intros Q F (HP & HT & _) Z k p Hk. set (T := nth (length xk - 1) xk 0 - nth 0 xk 0) in *.
      assert (T0 : 0 < T) by (unfold T; pose proof (incr_lt xk 0 (length xk - 1) Hi ltac:(lia)); lra).
      set (X' := fun t => nmod (dX x us t - nth 0 xk 0) T + nth 0 xk 0).
      assert (HX' : forall t, (t < size us)%nat -> nth 0 xk 0 <= X' t < nth (length xk - 1) xk 0 /\ exists k, X' t = dX x us t + IZR k * T).
      { intros t _. unfold X'. destruct (nmod_period (dX x us t) (nth 0 xk 0) T T0) as (k' & Qk & Qr). split; [unfold T in *; lra|]. exists k'. exact Qk. }
      apply (dense_determined n (Z.to_nat c) xk (size us) X' 0 0 Hi (Hd X' HX') Q F HP); auto; try (intros j Hj; lia).
      intros t Ht. destruct (HX' t Ht) as (_ & k' & ->). rewrite (periodic_IZR T F HT). apply Z. exact Ht.
    - intros X' HX'. apply dense_determined; auto.
  Qed.

End Splfit.

(* --- concrete cases, and the sign of the costs ------------------------------------------------------- *)
Definition k2 : list R := [0; 1].
Lemma k2_incr : incr k2.
Proof. intros [|[|i]] H; cbn in *; lra || lia. Qed.
Definition x5 : nd R := vec 0 [0; 1/2; 1; 3/2; 7/4].
Definition y5 : nd R := vec 0 [0; 1/4; 1; 9/4; 49/16].
Lemma x5_range v : datum x5 v -> 0 <= v < 2.
Proof.
  intros (idx & D & E). inversion D as [|i n a b Hi D' E1 E2]; subst. cbn in D'. inversion D'; subst.
  cbn in *. destruct i as [|[|[|[|[|i]]]]]; cbn; lra || lia.
Qed.
Lemma knots_same x xk K : (forall v, datum x v -> nth 0 xk 0 <= v <= nth (length xk - 1) xk 0) -> fit_knots (datum x) xk K -> K = xk.
Proof.
  intros H (a & b & -> & HA & HB). destruct HA as [[-> _]|(m & _ & Pm & Lm & _)]; [|apply H in Pm; lra].
  destruct HB as [[-> _]|(m & _ & Pm & Lm & _)]; [|apply H in Pm; lra]. rewrite app_nil_r. reflexivity.
Qed.
Lemma conf5 lo : Forall (fun b => bto (shp b) [] = true) lo -> conform x5 y5 None lo [] [] [5%nat].
Proof.
  intros H. constructor; auto.
  - exists [5%nat]. repeat split; reflexivity.
  - intros sg Q. discriminate Q.
Qed.
Lemma dense5 X : (forall t, (t < 5)%nat -> X t = dX x5 [5%nat] t) -> dense_points 2 k3 5 X.
Proof.
  intros H q Hq. assert (X0 : X 0%nat = 0) by (rewrite H by lia; reflexivity). assert (X1 : X 1%nat = 1/2) by (rewrite H by lia; reflexivity).
  assert (X2 : X 2%nat = 1) by (rewrite H by lia; reflexivity). assert (X3 : X 3%nat = 3/2) by (rewrite H by lia; reflexivity).
  assert (X4 : X 4%nat = 7/4) by (rewrite H by lia; reflexivity).
  exists (fun i => X (2 * q + i)%nat). destruct q as [|[|q]]; [| |cbn in Hq; lia]; (split; [|split]).
  1,4: intros [|[|[|i]]] Hi; cbn; rewrite ?X0, ?X1, ?X2, ?X3, ?X4; lra || lia.
  1,3: intros [|[|[|i]]] [|[|[|j]]] Hij; try lia; cbn; rewrite ?X0, ?X1, ?X2, ?X3, ?X4; lra.
  1,2: intros i Hi; eexists; split; [|reflexivity]; lia.
Qed.
(* five points on a parabola: a quadratic spline with one continuous derivative and given value at
   the first knot goes through them *)
Example C59_case : exists p F, splfit gbanded gdense k3 x5 y5 None 2 None [scalar 0] [] false ExNone = Ok p /\
  (forall t, pw_call p [] t = Ok (F t)) /\ F 0 = 0 /\ F (1/2) = 1/4 /\ F 1 = 1 /\ F (3/2) = 9/4 /\ F (7/4) = 49/16 /\
  exists D, (forall t, D 0%nat t = F t) /\ forall t, 0 < t < 2 -> derivs_at 1 D t.
Proof.
  destruct gauss_meets_specs as (G3 & _ & G5 & _).
  assert (Cf : conform x5 y5 None [scalar 0] [] [] [5%nat]) by (apply conf5; repeat constructor).
  assert (Sg : forall comp t, inb comp [] -> (t < size [5%nat])%nat -> dS None [5%nat] comp t <> 0) by (intros; cbn; lra).
  assert (RG : forall v, datum x5 v -> nth 0 k3 0 <= v <= nth (length k3 - 1) k3 0) by (intros v Dv; apply x5_range in Dv; cbn; lra).
  destruct (C59_exists_dense gbanded gdense G3 k3 x5 y5 None 2 None [scalar 0] [] ExNone [] [5%nat] G5 k3_incr ltac:(cbn; lia) Cf ltac:(cbn; lia)
    ltac:(cbn; lia) Sg ltac:(cbn; lia) ltac:(cbn; lia) ltac:(cbn; lia) ltac:(cbn; lia)) as [p E].
  { left. intros v Dv. apply RG. auto. } { right; reflexivity. } { cbn; lia. }
  { intros K HK. apply knots_same in HK as ->; auto. apply dense5. reflexivity. }
  destruct (C59_splfit gbanded gdense G3 k3 x5 y5 None 2 None [scalar 0] [] ExNone 1 1 p [] [5%nat] k3_incr ltac:(cbn; lia) Cf
    ltac:(cbn; lia) Sg eq_refl ltac:(lia) E) as (_ & _ & _ & K & HK & _ & H).
  apply knots_same in HK as ->; auto. destruct (H [] ltac:(constructor)) as (F & Q & D & C & _ & D0 & D1 & _ & _ & O).
  exists p, F. split; [exact E|]. split; [exact C|].
  set (Q' := fun k => match k with O => [0; 0; 1] | _ => [1; 2; 1] end).
  assert (SP : spline_on 2 1 k3 Q' (fun t => t ^ 2)).
  { split.
    - intros [|[|q]] Hq; [| |cbn in Hq; lia]; (split; [reflexivity|]); intros t _; cbn -[pow]; unfold peval; cbn -[pow]; ring.
    - intros [|q] Hq; [|cbn in Hq; lia]. apply joined_tay. intros [|[|k]] Hk; [| |lia]; cbn; ring. }
  specialize (O Q' _ SP). specialize (O ltac:(apply bc_met_tay; intros [|j] Hj; [cbn; unfold bget; cbn; ring|cbn in Hj; lia])).
  specialize (O ltac:(intros j Hj; cbn in Hj; lia)).
  unfold chi2 in O. change (size [5%nat]) with 5%nat in O. cbn [rsum] in O. unfold dX, dY, dS, bget in O. cbn in O. unfold Rdiv in O. rewrite !Rinv_1 in O.
  assert (S : Rsqr (F 0 - 0) + Rsqr (F (1/2) - 1/4) + Rsqr (F 1 - 1) + Rsqr (F (3/2) - 9/4) + Rsqr (F (7/4) - 49/16) <= 0).
  { unfold Rsqr, Rdiv. lra. }
  pose proof (Rle_0_sqr (F 0 - 0)). pose proof (Rle_0_sqr (F (1/2) - 1/4)). pose proof (Rle_0_sqr (F 1 - 1)).
  pose proof (Rle_0_sqr (F (3/2) - 9/4)). pose proof (Rle_0_sqr (F (7/4) - 49/16)).
  repeat (split; [apply Rminus_diag_uniq, Rsqr_0_uniq; lra|]). exists D. split; [exact D0|]. intros t Ht. apply D1. cbn. lra.
Qed.
Example C59_case_per : exists p, splfit gbanded gdense k3 x5 y5 None 2 None [] [] true ExNone = Ok p.
Proof.
  destruct gauss_meets_specs as (G3 & G4 & G5 & G6).
  apply (C59_periodic_dense gbanded gdense G3 G4 k3 x5 y5 None 2 None [] [5%nat] G5 G6 k3_incr).
  - cbn; lia. - apply conf5; constructor. - cbn; lia. - cbn; lia. - intros; cbn; lra. - cbn; lia.
  - intros X' HX'. apply dense5. intros t Ht. destruct (HX' t Ht) as (HR & k & Ek). cbn [nth k3 length Nat.sub] in HR, Ek.
    assert (R0 : 0 <= dX x5 [5%nat] t < 2) by (apply x5_range; eapply dX_datum; [apply (conf5 []); constructor|exact Ht]).
    assert (k = 0%Z) as ->; [|rewrite Ek; ring].
    assert (Z : -1 < IZR k < 1) by lra. destruct Z as [Z1 Z2]. apply lt_IZR in Z2. apply (lt_IZR (-1)) in Z1. lia.
Qed.

(* The doc string: "a positive `cost` means that if the coefficient changes by a positive amount
   for increasing x across the knot, then `chi2` will increase", "chi2 would change by cost*dc".
   For the points (0,0), (1,0), one interval [0,1], degree 1 and lo=(1,) the fit is 1-t.  When the
   value just after the first knot is 1+j instead of 1, the least chi2 is (1+j)**2, with derivative
   2 at j=0; the cost returned is -2. *)
Definition x2d : nd R := vec 0 [0; 1].
Definition y2d : nd R := vec 0 [0; 0].
Definition least (j m : R) : Prop :=
  (exists Q G, spline_on 1 0 k2 Q G /\ G 0 = 1 + j /\ chi2 2 (dX x2d [2%nat]) (dY y2d [2%nat] []) (fun _ => 1) G = m) /\
  forall Q G, spline_on 1 0 k2 Q G -> G 0 = 1 + j -> m <= chi2 2 (dX x2d [2%nat]) (dY y2d [2%nat] []) (fun _ => 1) G.
Lemma chi2_2 G : chi2 2 (dX x2d [2%nat]) (dY y2d [2%nat] []) (fun _ => 1) G = Rsqr (G 0) + Rsqr (G 1).
Proof. unfold chi2. cbn [rsum]. unfold dX, dY, bget. cbn. unfold Rsqr. field. Qed.
Lemma line2 a b : spline_on 1 0 k2 (fun _ => [a; b]) (fun t => a + b * t).
Proof.
  split.
  - intros [|q] Hq; [|cbn in Hq; lia]. split; [reflexivity|]. intros t _. unfold peval. cbn. ring.
  - intros q Hq. cbn in Hq. lia.
Qed.
Theorem C81_sign_refuted : exists p c,
  splfit_cost gbanded gdense k2 x2d y2d None 1 None [scalar 1] [] false ExNone = Ok (p, c) /\
  (forall j, least j ((1 + j) ^ 2)) /\ derivable_pt_lim (fun j => (1 + j) ^ 2) 0 2 /\ clo c 0 0 = -2.
Proof.
  destruct gauss_meets_specs as (G3 & _ & G5 & _).
  assert (RG : forall v, datum x2d v -> nth 0 k2 0 <= v <= nth (length k2 - 1) k2 0).
  { intros v (idx & D & E). inversion D as [|i n a b Hi D' E1 E2]; subst. cbn in D'. inversion D'; subst.
    cbn in *. destruct i as [|[|i]]; cbn; lra || lia. }
  assert (Cf : conform x2d y2d None [scalar 1] [] [] [2%nat]).
  { constructor; [exists [2%nat]; repeat split; reflexivity|intros sg Q; discriminate Q|repeat constructor|constructor]. }
  assert (Sg : forall comp t, inb comp [] -> (t < size [2%nat])%nat -> dS None [2%nat] comp t <> 0) by (intros; cbn; lra).
  destruct (C59_exists_dense gbanded gdense G3 k2 x2d y2d None 1 None [scalar 1] [] ExNone [] [2%nat] G5 k2_incr ltac:(cbn; lia) Cf ltac:(cbn; lia)
    ltac:(cbn; lia) Sg ltac:(cbn; lia) ltac:(cbn; lia) ltac:(cbn; lia) ltac:(cbn; lia)) as [p E].
  { left. intros v Dv. apply RG. auto. } { right; reflexivity. } { cbn; lia. }
  { intros K HK. apply knots_same in HK as ->; auto. intros [|q] Hq; [|cbn in Hq; lia]. exists (fun i => dX x2d [2%nat] i). unfold dX, bget. split; [|split].
    - intros [|[|i]] Hi; cbn; lra || lia.
    - intros [|[|i]] [|[|j]] Hij; try lia. cbn. lra.
    - intros i Hi. exists i. split; [exact Hi|reflexivity]. }
  pose proof E as E'. unfold splfit in E'. apply bind_ok in E' as (f & Ef & Ep). exists p, (splfit_costs 1 false f).
  assert (EC : splfit_cost gbanded gdense k2 x2d y2d None 1 None [scalar 1] [] false ExNone = Ok (p, splfit_costs 1 false f)).
  { unfold splfit_cost. rewrite Ef. cbn [bind]. rewrite Ep. reflexivity. }
  split; [exact EC|]. split; [|split].
  - intros j. split.
    + exists (fun _ => [1 + j; - (1 + j)]), (fun t => (1 + j) + - (1 + j) * t). split; [apply line2|]. split; [ring|]. rewrite chi2_2. unfold Rsqr. ring.
    + intros Q G _ G0. rewrite chi2_2, G0. pose proof (Rle_0_sqr (G 1)). unfold Rsqr at 1. lra.
  - assert (D := derivable_pt_lim_comp (fun j => 1 + j) (fun u => u ^ 2) 0 (0 + 1) (INR 2 * (1 + 0) ^ 1)
      (derivable_pt_lim_plus _ _ 0 0 1 (derivable_pt_lim_const 1 0) (derivable_pt_lim_id 0)) (derivable_pt_lim_pow (1 + 0) 2)).
    replace (INR 2 * (1 + 0) ^ 1 * (0 + 1)) with 2 in D by (cbn; ring). exact D.
  - destruct (C59_splfit gbanded gdense G3 k2 x2d y2d None 1 None [scalar 1] [] ExNone 0 0 p [] [2%nat] k2_incr ltac:(cbn; lia) Cf
      ltac:(cbn; lia) Sg eq_refl ltac:(lia) E) as (_ & _ & _ & K & HK & _ & H).
    apply knots_same in HK as ->; auto. destruct (H [] ltac:(constructor)) as (F & Q & D & C & SP & _ & _ & BL & _ & O).
    assert (F0 : F 0 = 1).
    { destruct SP as [SP _]. destruct (SP 0%nat ltac:(cbn; lia)) as [_ V]. rewrite V by (cbn; lra). cbn [nth k2]. replace (0 - 0) with 0 by ring.
      rewrite <- tay_0, (proj1 (bc_met_tay _ _ _ _) BL 0%nat) by (cbn; lia). reflexivity. }
    specialize (O _ _ (line2 1 (-1))). change (dS None [2%nat] []) with (fun _ : nat => 1) in O. change (size [2%nat]) with 2%nat in O. rewrite !chi2_2 in O.
    specialize (O ltac:(apply bc_met_tay; intros [|j] Hj; [cbn; unfold bget; cbn; ring|cbn in Hj; lia]) ltac:(intros j Hj; cbn in Hj; lia)).
    assert (F1 : F 1 = 0). { apply Rsqr_0_uniq. pose proof (Rle_0_sqr (F 1)). rewrite F0 in O. unfold Rsqr in *. lra. }
    destruct (C81_cost_partial gbanded gdense G3 k2 x2d y2d None 1 None [scalar 1] [] ExNone 0 0 p _ [] [2%nat] k2_incr ltac:(cbn; lia) Cf
      ltac:(cbn; lia) Sg eq_refl ltac:(lia) EC) as (_ & K & HK & ID).
    apply knots_same in HK as ->; auto. destruct (ID [] ltac:(constructor)) as (F' & C' & ID'). cbv zeta in ID'.
    assert (FE : forall t, F' t = F t) by (intros t; specialize (C t); rewrite C' in C; injection C; auto).
    specialize (ID' (fun _ => [0; 0]) (fun t => 0 + 0 * t) (fun _ => 0) (fun _ _ => 0) (fun _ _ => 0) (fun _ => 0)
      (pieces_half 1 k2 _ _ k2_incr ltac:(cbn; lia) (proj1 (line2 0 0)))).
    specialize (ID' ltac:(apply taylor_is_tay; intros [|j] Hj; [cbn; ring|cbn in Hj; lia]) ltac:(intros q Hq; cbn in Hq; lia) ltac:(intros q Hq; cbn in Hq; lia)).
    change (dS None [2%nat] []) with (fun _ : nat => 1) in ID'. change (size [2%nat]) with 2%nat in ID'. rewrite !chi2_2 in ID'.
    cbn [rsum length k2 Nat.sub] in ID'. unfold dX, bget in ID'. cbn -[clo] in ID'. rewrite !FE, F0, F1 in ID'. unfold Rsqr in ID'.
    change (ravel [] []) with 0%nat in ID'. unfold Rdiv in ID'. rewrite Rinv_1 in ID'. lra.
Qed.

Print Assumptions C59_splfit.
Print Assumptions C59_exists.
Print Assumptions C59_exists_dense.
Print Assumptions C59_periodic.
Print Assumptions C59_periodic_exists.
Print Assumptions C59_periodic_dense.
Print Assumptions C81_cost_partial.
Print Assumptions C81_periodic_partial.
Print Assumptions C81_sign_refuted.
