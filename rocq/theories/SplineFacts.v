(* The function returned by spline, from its pieces. *)
From Coq Require Import List Arith ZArith Lia Bool Reals Lra.
From Verif Require Import Num PyBase NdArray Poly SpecPoly PolyProofs PwPoly PwBase PwDeriv PwInteg PwCtor PropsCtor RSum
  SolvePer SolveProofs Gauss PropsSolve Spline SplineProofs SplineCore SplineSolve.
Import ListNotations.
Local Open Scope R_scope.

(* --- what success says about the arguments ------------------------------------------------ *)
Lemma set_row_ok r bnd sc (b b' : arr2 R) : set_row r bnd sc b = Ok b' -> bto (shp bnd) [nc b] = true /\ nc b' = nc b.
Proof. unfold set_row. destruct (bto (shp bnd) [nc b]); [|discriminate]. intros E. injection E as <-. auto. Qed.
Lemma hi_loop_bfit n nun dxl hi : forall i k (b : arr2 R) ab b' ab', hi_loop n nun dxl i k hi b ab = Ok (b', ab') ->
  bfit (nc b) hi /\ nc b' = nc b.
Proof.
  induction hi as [|[bnd|] hi IH]; intros i k b ab b' ab' E; cbn [hi_loop] in E.
  - injection E as <- <-. split; auto. intros c [].
  - destruct (n - 1 <=? k)%nat; [discriminate|].
    destruct (set_row _ _ _ _) as [b1|] eqn:E1; [|discriminate]. cbn [bind] in E. destruct (set_row_ok _ _ _ _ _ E1) as [F1 F2].
    destruct (fset _ _ _ _ _ _) as [ab1|] eqn:E2; [|discriminate]. cbn [bind] in E.
    destruct (IH _ _ _ _ _ _ E) as [G1 G2]. rewrite F2 in *. split; auto. intros c [Ec|Hc]; [injection Ec as <-; auto|auto].
  - destruct (IH _ _ _ _ _ _ E) as [G1 G2]. split; auto. intros c [Ec|Hc]; [discriminate|auto].
Qed.
Lemma lo_loop_bfit n nun dx0 rlo : forall i k1 j (b : arr2 R) ab b' ab', lo_loop n nun dx0 i k1 j rlo b ab = Ok (b', ab') ->
  bfit (nc b) rlo.
Proof.
  induction rlo as [|[bnd|] rlo IH]; intros i k1 j b ab b' ab' E; cbn [lo_loop] in E.
  - intros c [].
  - destruct (set_row _ _ _ _) as [b1|] eqn:E1; [|discriminate]. cbn [bind] in E. destruct (set_row_ok _ _ _ _ _ E1) as [F1 F2].
    destruct (nth_error _ _); [|discriminate]. specialize (IH _ _ _ _ _ _ _ E). rewrite F2 in IH.
    intros c [Ec|Hc]; [injection Ec as <-; auto|auto].
  - specialize (IH _ _ _ _ _ _ _ E). intros c [Ec|Hc]; [discriminate|auto].
Qed.
Lemma spl_solve_bfit sb s n (x : list R) nshape yf lo hi nlo B :
  spl_solve sb s n x nshape yf false lo hi nlo = Ok B -> bfit nshape lo /\ bfit nshape hi.
Proof.
  unfold spl_solve. intros E. destruct (hi_loop _ _ _ _ _ _ _ _) as [[b1 ab1]|] eqn:E1; [|discriminate]. cbn [bind] in E.
  destruct (hi_loop_bfit _ _ _ _ _ _ _ _ _ _ E1) as [F1 F2]. cbn [spl_b nc] in F1, F2.
  destruct (lo_loop _ _ _ _ _ _ _ _ _) as [[b2 ab2]|] eqn:E2; [|discriminate].
  apply lo_loop_bfit in E2. split; auto. intros c Hc. apply in_rev in Hc. apply E2 in Hc.
  destruct (nlo =? 0)%nat; cbn [roll2 nc] in Hc; rewrite F2 in Hc; auto.
Qed.
Lemma filled_bfit_inv nc n lo hi lo' hi' : (length lo <= n - 1)%nat -> (length hi <= n - 1)%nat ->
  filled n lo hi lo' hi' -> bfit nc lo' -> bfit nc hi' -> bfit nc lo /\ bfit nc hi.
Proof.
  intros Ll Lh HF Fl Fh.
  assert (G : forall s b, getslot lo hi s = Some b -> getslot lo' hi' s = Some b).
  { intros s b E. destruct (HF s) as [_ H2]. rewrite H2; auto. intros I.
    assert (I2 : In s (free_slots lo hi (slots (n - 1)))).
    { apply (firstn_in_app _ _ []) in I. rewrite app_nil_r in I. exact I. }
    apply filter_In in I2. destruct I2 as [_ I2]. rewrite E in I2. discriminate. }
  assert (In_get : forall (l : list (option (nd R))) i b, nth i l None = Some b -> In (Some b) l).
  { intros l i b E. rewrite <- E. apply nth_In. destruct (Nat.lt_ge_cases i (length l)); auto. rewrite nth_overflow in E by auto. discriminate. }
  split; intros b Hb; apply (In_nth _ _ None) in Hb; destruct Hb as (i & Hi & E).
  - apply Fl. apply (In_get lo' i). apply (G (i, false)). exact E.
  - apply Fh. apply (In_get hi' i). apply (G (i, true)). exact E.
Qed.

Definition good_args (x : list R) (y : yarr R) (n : nat) (lo hi : bcarg) : Prop :=
  let l := bc_tuple lo in let h := bc_tuple hi in
  (2 <= length x)%nat /\ yn y = length x /\ size (ysh y) <> 0%nat /\
  (length l <= n - 1)%nat /\ (length h <= n - 1)%nat /\ (count_some l + count_some h <= n - 1)%nat /\
  bfit (size (ysh y)) l /\ bfit (size (ysh y)) h.
Lemma spline_ok_args inv sb s x y n lo hi extrap p : (2 <= n)%nat -> incr x ->
  spline inv sb s x y n lo hi false extrap = Ok p -> good_args x y n lo hi.
Proof.
  intros Hn Hi E. unfold spline in E.
  destruct (Nat.eqb_spec (length x) 0); [discriminate|]. cbn [orb] in E.
  destruct (Nat.eqb_spec (size (ysh y ++ [yn y])) 0) as [|Hs]; [discriminate|].
  destruct (Nat.ltb_spec (length x) 2) as [|Hx]; [discriminate|].
  destruct (Nat.eqb_spec (yn y) (length x)) as [Hy|]; [|discriminate]. cbn [negb andb] in E.
  rewrite (incr_ends x Hi Hx) in E. destruct (ex_pair n extrap) as [e f].
  destruct (Nat.leb_spec n (length (bc_tuple lo))) as [|Ll]; [discriminate|].
  destruct (Nat.leb_spec n (length (bc_tuple hi))) as [|Lh]; [discriminate|]. cbn [orb] in E.
  destruct (Nat.ltb_spec n 2) as [|_]; [exfalso; lia|].
  assert (Hsz : size (ysh y) <> 0%nat) by (rewrite size_snoc in Hs; nia).
  destruct (Nat.le_gt_cases (count_some (bc_tuple lo) + count_some (bc_tuple hi)) (n - 1)) as [Hc|Hc].
  - destruct (spl_bcs_ok n (bc_tuple lo) (bc_tuple hi) ltac:(lia) ltac:(lia) Hc) as (lo' & hi' & nhi & E1 & L1 & L2 & C1 & HF).
    rewrite E1 in E. cbn [bind] in E.
    destruct (spl_solve _ _ _ _ _ _ _ _ _ _) as [B|] eqn:EB; [|discriminate].
    apply spl_solve_bfit in EB. destruct EB as [Fl Fh].
    assert (Ll' : (length (bc_tuple lo) <= n - 1)%nat) by lia. assert (Lh' : (length (bc_tuple hi) <= n - 1)%nat) by lia.
    destruct (filled_bfit_inv _ _ _ _ _ _ Ll' Lh' HF Fl Fh) as [Gl Gh].
    unfold good_args. cbv zeta. repeat split; auto.
  - rewrite spl_bcs_over in E by lia. discriminate.
Qed.

(* --- the pieces of the returned object --------------------------------------------------------- *)
Lemma nth_zero_tail e (c : list R) k : (-1 <= e)%Z -> nth k (zero_tail e c) 0 = if (Z.of_nat k <=? e)%Z then nth k c 0 else 0.
Proof.
  intros He. unfold zero_tail, slice_adjust. cbn [Z.ltb Z.compare].
  destruct (Z.ltb_spec (e + 1) 0); [lia|]. set (s := Z.to_nat _).
  assert (Hs : s = Nat.min (Z.to_nat (e + 1)) (length c)).
  { unfold s. destruct (Z.ltb_spec (Z.of_nat (length c)) (e + 1)); lia. }
  destruct (Nat.lt_ge_cases k s) as [L|L].
  - rewrite app_nth1 by (rewrite firstn_length; lia). destruct (Z.leb_spec (Z.of_nat k) e); [|lia].
    rewrite <- (firstn_skipn s c) at 2. rewrite app_nth1; auto. rewrite firstn_length. lia.
  - rewrite app_nth2 by (rewrite firstn_length; lia). rewrite nth_repeat.
    destruct (Z.leb_spec (Z.of_nat k) e); auto. symmetry. apply nth_overflow. lia.
Qed.
Lemma peval_nth_sum (c : list R) m t : (length c <= S m)%nat -> peval c t = sum_f_R0 (fun k => nth k c 0 * t ^ k) m.
Proof.
  revert m; induction c as [|a c IH]; intros m Hm.
  - rewrite peval_nil. symmetry. apply sum_eq_R0. intros k _. destruct k; cbn [nth]; ring.
  - rewrite peval_cons. destruct m as [|m].
    + destruct c; [|cbn in Hm; lia]. rewrite peval_nil. cbn. ring.
    + rewrite (IH m) by (cbn in Hm; lia). clear. rewrite (decomp_sum (fun k => nth k (a :: c) 0 * t ^ k) (S m)) by lia. cbn [pred nth pow]. rewrite Rmult_1_r. f_equal.
      rewrite scal_sum. apply sum_eq. intros i _. cbn [nth pow]. ring.
Qed.

Section Facts.
  Variables (n : nat) (x : list R) (sh : list nat) (e f : Z) (cols : list nat -> nat -> list R) (p : pwpoly R).
  Variables (comp : list nat) (y : nat -> R).
  Hypothesis Hn : (1 <= n)%nat.
  Hypothesis Hx : (2 <= length x)%nat.
  Hypothesis HR : spl_result n x sh e f cols p.
  Hypothesis Hb : inb comp sh.
  Hypothesis HP : pieces n x false y (cols comp).
  Let nseg := (length x - 1)%nat.
  Let F := pw_val p comp.
  Let Q := cols comp.

  Lemma sf_wf : pw_wf p. Proof. apply HR. Qed.
  Lemma sf_pw : pcl p = Pw. Proof. apply HR. Qed.
  Lemma sf_xk : pxk p = x. Proof. apply HR. Qed.
  Lemma sf_inc : incr x. Proof. rewrite <- sf_xk. apply sf_wf. Qed.
  Lemma sf_F t : F t = base p comp t.
  Proof. unfold F. rewrite pw_val_base, pw_reduce_Pw; auto. apply sf_pw. Qed.
  Lemma sf_call t : pw_call p comp t = Ok (F t).
  Proof. apply pw_call_wf, sf_wf. Qed.
  Lemma sf_left q : (1 <= q)%nat -> nth q (pxk0 p) 0 = nth (q - 1) x 0.
  Proof. intros H. destruct q as [|q]; [lia|]. rewrite pxk0_S, sf_xk. f_equal. lia. Qed.
  Lemma sf_left0 : nth 0 (pxk0 p) 0 = nth 0 x 0.
  Proof. rewrite (wf_first p sf_wf), sf_xk. reflexivity. Qed.
  Lemma sf_cols : ccol (pc p) comp 0 = zero_tail e (Q 0%nat) /\
    (forall q, (q < nseg)%nat -> ccol (pc p) comp (S q) = Q q) /\
    ccol (pc p) comp (length x) = zero_tail f (pshift (Q (nseg - 1)%nat) (dxs x (nseg - 1))).
  Proof. destruct HR as (_ & _ & _ & _ & _ & _ & H). apply H. exact Hb. Qed.
  Lemma sf_piece q t : (q < nseg)%nat -> nth q x 0 < t <= nth (S q) x 0 -> F t = peval (Q q) (t - nth q x 0).
  Proof.
    intros Hq Ht. rewrite sf_F, (base_piece p comp (S q)).
    - destruct sf_cols as (_ & C & _). rewrite C by auto. rewrite sf_left by lia. replace (S q - 1)%nat with q by lia. reflexivity.
    - rewrite sf_xk. apply sf_inc.
    - rewrite sf_xk. apply interval_piece; auto; [apply sf_inc|unfold nseg in Hq; lia].
  Qed.
  Lemma sf_below t : t <= nth 0 x 0 -> F t = peval (zero_tail e (Q 0%nat)) (t - nth 0 x 0).
  Proof.
    intros Ht. rewrite sf_F, (base_piece p comp 0).
    - destruct sf_cols as (C & _ & _). rewrite C, sf_left0. reflexivity.
    - rewrite sf_xk. apply sf_inc.
    - rewrite sf_xk. split; [lia|]. split; intros j Hj; [lia|].
      apply Rle_trans with (nth 0 x 0); [lra|apply incr_le; [apply sf_inc|lia]].
  Qed.
  Lemma sf_above t : nth nseg x 0 < t ->
    F t = peval (zero_tail f (pshift (Q (nseg - 1)%nat) (dxs x (nseg - 1)))) (t - nth nseg x 0).
  Proof.
    intros Ht. rewrite sf_F, (base_piece p comp (length x)).
    - destruct sf_cols as (_ & _ & C). rewrite C, sf_left by lia. reflexivity.
    - rewrite sf_xk. apply sf_inc.
    - rewrite sf_xk. split; [lia|]. split; intros j Hj; [|lia].
      apply Rle_lt_trans with (nth nseg x 0); [apply incr_le; [apply sf_inc|unfold nseg; lia]|lra].
  Qed.
  Lemma sf_len q : (q < nseg)%nat -> length (Q q) = (n + 1)%nat.
  Proof. intros Hq. apply HP; auto. Qed.
  Lemma sf_ne q : (q < nseg)%nat -> Q q <> [].
  Proof. intros Hq E. pose proof (sf_len q Hq) as L. rewrite E in L. cbn in L. lia. Qed.
  Lemma sf_knot i : (1 <= i < length x)%nat -> F (nth i x 0) = y i.
  Proof.
    intros Hi. destruct i as [|q]; [lia|]. rewrite (sf_piece q).
    - destruct HP as (P1 & _). destruct (P1 q ltac:(lia)) as (_ & _ & E). rewrite tay_0 in E. rewrite Nat.add_1_r in E. exact E.
    - unfold nseg; lia.
    - pose proof (sf_inc q ltac:(lia)). lra.
  Qed.
  Lemma sf_knot0 : F (nth 0 x 0) = if (0 <=? e)%Z then y 0%nat else F (nth 0 x 0).
  Proof.
    destruct (Z.leb_spec 0 e); auto. rewrite sf_below by lra. replace (nth 0 x 0 - nth 0 x 0) with 0 by ring.
    rewrite peval_0, nth_zero_tail by lia. destruct (Z.leb_spec (Z.of_nat 0) e); [|lia].
    destruct HP as (P1 & _). destruct (P1 0%nat ltac:(lia)) as (_ & E & _). exact E.
  Qed.
  (* matching of derivatives at the knots *)
  Lemma sf_match0 k : (-1 <= e)%Z -> (Z.of_nat k <= e)%Z -> match_at p comp 0 k.
  Proof.
    intros He Hk. unfold match_at. rewrite sf_left0, sf_xk. replace (nth 0 x 0 - nth 0 x 0) with 0 by ring. rewrite tay_at_0.
    destruct sf_cols as (C & C' & _). rewrite C, C' by (unfold nseg; lia). rewrite nth_zero_tail by auto.
    destruct (Z.leb_spec (Z.of_nat k) e); [reflexivity|lia].
  Qed.
  Lemma sf_match_in j k : (1 <= j < nseg)%nat -> (k <= n - 1)%nat -> match_at p comp j k.
  Proof.
    intros Hj Hk. unfold match_at. rewrite sf_left, sf_xk by lia. destruct j as [|q]; [lia|].
    destruct sf_cols as (_ & C & _). rewrite !C by lia. replace (S q - 1)%nat with q by lia.
    change (nth (S q) x 0 - nth q x 0) with (dxs x q). destruct HP as (P1 & P2). fold nseg in P1, P2.
    destruct k as [|k].
    - destruct (P1 q ltac:(lia)) as (_ & _ & E). destruct (P1 (S q) ltac:(lia)) as (_ & E' & _).
      unfold Q. rewrite E, E', Nat.add_1_r. reflexivity.
    - unfold Q. rewrite P2 by lia. rewrite Nat.mod_small by lia. rewrite Nat.add_1_r. reflexivity.
  Qed.
  Lemma sf_matchN k : (-1 <= f)%Z -> (Z.of_nat k <= f)%Z -> match_at p comp nseg k.
  Proof.
    intros Hf Hk. unfold match_at. rewrite sf_left, sf_xk by (unfold nseg; lia).
    destruct sf_cols as (_ & C & C'). replace (S nseg) with (length x) by (unfold nseg; lia). rewrite C', nth_zero_tail by auto.
    destruct (Z.leb_spec (Z.of_nat k) f); [|lia].
    assert (E : ccol (pc p) comp nseg = Q (nseg - 1)%nat).
    { replace nseg with (S (nseg - 1)) at 1 by (unfold nseg; lia). apply C. unfold nseg; lia. }
    rewrite E. rewrite <- (tay_at_0 k (pshift _ _)), pshift_tay, Rplus_0_r by (apply sf_ne; unfold nseg; lia).
    f_equal. unfold dxs. numR. replace (S (nseg - 1)) with nseg by (unfold nseg; lia). reflexivity.
  Qed.
  (* derivatives *)
  Definition sg := pder p comp.
  Lemma sg_0 t : sg 0 t = F t.
  Proof. unfold sg. rewrite pder_0, sf_F. reflexivity. Qed.
  Lemma sg_match h : (forall j k, (j < length x)%nat -> (k <= h)%nat -> match_at p comp j k) -> derivs_upto h F sg.
  Proof.
    intros M. split; [exact sg_0|]. split; intros k t Hk.
    - apply pder_dpl; [rewrite sf_xk; apply sf_inc|]. rewrite sf_xk. intros j Hj _. split; apply M; auto; lia.
    - apply pder_cont; [rewrite sf_xk; apply sf_inc|]. rewrite sf_xk. intros j Hj _. apply M; auto.
  Qed.
  Lemma sg_in k t : nth 0 x 0 < t < nth nseg x 0 ->
    ((k < n - 1)%nat -> derivable_pt_lim (sg k) t (sg (S k) t)) /\ ((k <= n - 1)%nat -> continuity_pt (sg k) t).
  Proof.
    intros Ht.
    assert (J : forall j, (j < length x)%nat -> t = nth j x 0 -> (1 <= j < nseg)%nat).
    { intros j Hj E. destruct j as [|j]; [lra|]. split; [lia|]. destruct (Nat.eq_dec (S j) nseg) as [E'|]; [|unfold nseg in *; lia].
      rewrite E' in E. rewrite <- E in Ht. lra. }
    split; intros Hk.
    - apply pder_dpl; [rewrite sf_xk; apply sf_inc|]. rewrite sf_xk. intros j Hj E. split; apply sf_match_in; auto; lia.
    - apply pder_cont; [rewrite sf_xk; apply sf_inc|]. rewrite sf_xk. intros j Hj E. apply sf_match_in; auto.
  Qed.
  Lemma sg_first k : (-1 <= e)%Z -> (Z.of_nat k <= e)%Z -> sg k (nth 0 x 0) = INR (fact k) * nth k (Q 0%nat) 0.
  Proof.
    intros He Hk. unfold sg. rewrite (pder_piece p comp k 0).
    - rewrite sf_left0. replace (nth 0 x 0 - nth 0 x 0) with 0 by ring. rewrite tay_at_0. f_equal.
      destruct sf_cols as (C & _ & _). rewrite C, nth_zero_tail by auto. destruct (Z.leb_spec (Z.of_nat k) e); [reflexivity|lia].
    - rewrite sf_xk. apply sf_inc.
    - rewrite sf_xk. apply in_piece_knot; [apply sf_inc|lia].
  Qed.
  Lemma sg_last k : sg k (nth nseg x 0) = INR (fact k) * tay k (Q (nseg - 1)%nat) (dxs x (nseg - 1)).
  Proof.
    unfold sg. rewrite (pder_piece p comp k nseg).
    - rewrite sf_left by (unfold nseg; lia). destruct sf_cols as (_ & C & _).
      replace nseg with (S (nseg - 1)) at 1 by (unfold nseg; lia). rewrite C by (unfold nseg; lia).
      do 2 f_equal. unfold dxs. numR. replace (S (nseg - 1)) with nseg by (unfold nseg; lia). reflexivity.
    - rewrite sf_xk. apply sf_inc.
    - rewrite sf_xk. apply in_piece_knot; [apply sf_inc|unfold nseg; lia].
  Qed.
End Facts.

(* the Taylor polynomial kept by zero_tail *)
Lemma zero_tail_taylor (c : list R) (d : nat -> R) (e : Z) t : (0 <= e)%Z ->
  (forall k, (Z.of_nat k <= e)%Z -> d k = INR (fact k) * nth k c 0) -> peval (zero_tail e c) t = taylor_poly d (Z.to_nat e) t.
Proof.
  intros He H. unfold taylor_poly. set (m := Z.to_nat e).
  rewrite (peval_nth_sum _ (m + length c)) by (rewrite zero_tail_len; lia).
  rewrite (sum_eq _ (fun k => (if (k <=? m)%nat then nth k c 0 else 0) * t ^ k)).
  2:{ intros k _. rewrite nth_zero_tail by lia. destruct (Z.leb_spec (Z.of_nat k) e), (Nat.leb_spec k m); unfold m in *; try lia; reflexivity. }
  assert (G : forall a, sum_f_R0 (fun k => (if (k <=? m)%nat then nth k c 0 else 0) * t ^ k) (m + a) =
              sum_f_R0 (fun k => (if (k <=? m)%nat then nth k c 0 else 0) * t ^ k) m).
  { induction a as [|a IH]; [rewrite Nat.add_0_r; reflexivity|]. rewrite Nat.add_succ_r. cbn [sum_f_R0]. rewrite IH.
    destruct (Nat.leb_spec (S (m + a)) m); [lia|]. ring. }
  rewrite G. apply sum_eq. intros k Hk. destruct (Nat.leb_spec k m); [|lia]. rewrite H by (unfold m in *; lia).
  field. apply INR_fact_neq_0.
Qed.

(* --- smoothness of a periodic piecewise polynomial ---------------------------------------------- *)
(* the k-th derivative of the last piece at the last knot is that of the first piece at the first *)
Definition per_match (p : pwpoly R) (comp : list nat) (k : nat) : Prop :=
  let nk := length (pxk p) in
  tay k (ccol (pc p) comp (nk - 1)) (nth (nk - 1) (pxk p) 0 - nth (nk - 2) (pxk p) 0) = nth k (ccol (pc p) comp 1) 0.
Section PerSmooth.
  Variables (p : pwpoly R) (comp : list nat).
  Hypothesis W : pw_wf p.
  Hypothesis HP : pcl p = Per.
  Hypothesis Hb : inb comp (csh (pc p)).
  Let xk := pxk p.
  Let nk := length xk.
  Definition perg (k : nat) (t : R) : R := pder p comp k (pw_reduce p t).
  Lemma perg_0 t : perg 0 t = pw_val p comp t.
  Proof. unfold perg. rewrite pder_0, pw_val_base. reflexivity. Qed.
  Lemma perg_per k t : perg k (t + per_len p) = perg k t.
  Proof. unfold perg. replace (per_len p) with (IZR 1 * per_len p) at 1 by ring. rewrite reduce_periodic; auto. Qed.
  Lemma per_nk : (2 <= nk)%nat. Proof. destruct (wf_per p W HP) as (H & _). exact H. Qed.
  Lemma per_end : nth 0 xk 0 + per_len p = nth (nk - 1) xk 0.
  Proof. unfold per_len. fold xk nk. ring. Qed.
  (* pieces near a period point *)
  Lemma per_near t : pw_reduce p t = nth 0 xk 0 -> exists e, 0 < e /\
    (forall k u, t - e < u <= t -> (per_match p comp k) ->
       perg k u = INR (fact k) * tay k (ccol (pc p) comp (nk - 1)) (u - (t - (nth (nk - 1) xk 0 - nth (nk - 2) xk 0)))) /\
    (forall k u, t < u < t + e -> perg k u = INR (fact k) * tay k (ccol (pc p) comp 1) (u - t)) /\
    (forall k, perg k t = INR (fact k) * nth k (ccol (pc p) comp 1) 0).
  Proof.
    intros Ht. pose proof per_nk as H2. pose proof (wf_inc p W) as Hi. fold xk in Hi. pose proof (per_len_pos p W HP) as HT.
    destruct (reduce_Per p t W HP) as (m & Hm & _). rewrite Ht in Hm.
    set (dl := nth (nk - 1) xk 0 - nth (nk - 2) xk 0). set (d0 := nth 1 xk 0 - nth 0 xk 0).
    assert (Hd0 : 0 < d0) by (unfold d0; pose proof (Hi 0%nat ltac:(fold nk; lia)); lra).
    assert (Hdl : 0 < dl).
    { unfold dl. pose proof (Hi (nk - 2)%nat ltac:(fold nk; lia)) as H. replace (S (nk - 2)) with (nk - 1)%nat in H by lia. lra. }
    assert (B0 : forall k, perg k t = INR (fact k) * nth k (ccol (pc p) comp 1) 0).
    { intros k. unfold perg. rewrite Ht, (pder_piece p comp k 0); auto.
      - destruct (wf_per p W HP) as (_ & _ & C). destruct (C comp Hb) as [-> _]. rewrite (wf_first p W). fold xk.
        replace (nth 0 xk 0 - nth 0 xk 0) with 0 by ring. rewrite tay_at_0. reflexivity.
      - apply in_piece_knot; auto. fold xk nk. lia. }
    exists (Rmin (Rmin d0 dl) (per_len p)). split; [repeat apply Rmin_glb_lt; auto|].
    pose proof (Rmin_l d0 dl). pose proof (Rmin_r d0 dl). pose proof (Rmin_l (Rmin d0 dl) (per_len p)). pose proof (Rmin_r (Rmin d0 dl) (per_len p)).
    split; [|split; [|exact B0]].
    - intros k u Hu M. destruct (Req_dec u t) as [->|Hne].
      + rewrite B0. replace (t - (t - dl)) with dl by ring. unfold per_match in M. fold xk nk dl in M. rewrite M. reflexivity.
      + assert (E : pw_reduce p u = u - IZR (m - 1) * per_len p).
        { apply (reduce_unique p _ _ (m - 1) W HP); auto. rewrite minus_IZR. fold xk. lra. }
        assert (Eu : pw_reduce p u = nth (nk - 1) xk 0 + (u - t)).
        { rewrite E, minus_IZR, <- per_end. lra. }
        unfold perg. rewrite (pder_piece p comp k (nk - 1)); auto.
        * do 2 f_equal. rewrite Eu. replace (nk - 1)%nat with (S (nk - 2)) at 2 by lia. rewrite pxk0_S. fold xk. unfold dl. ring.
        * fold xk. replace (nk - 1)%nat with (S (nk - 2)) by lia. apply interval_piece; auto; [fold nk; lia|].
          replace (S (nk - 2)) with (nk - 1)%nat by lia. rewrite Eu. unfold dl in *. lra.
    - intros k u Hu. assert (E : pw_reduce p u = u - IZR m * per_len p).
      { apply (reduce_unique p _ _ m W HP); auto. fold xk. lra. }
      unfold perg. rewrite (pder_piece p comp k 1); auto.
      + do 2 f_equal. rewrite E, pxk0_S. fold xk. lra.
      + fold xk. apply interval_piece; [auto|fold nk; lia|]. rewrite E. unfold d0 in *. lra.
  Qed.
  Lemma per_inner t : pw_reduce p t <> nth 0 xk 0 -> nth 0 xk 0 < pw_reduce p t < nth (nk - 1) xk 0 /\
    exists e z, 0 < e /\ pw_reduce p t = t - z /\ forall u, Rabs (u - t) < e -> pw_reduce p u = u - z.
  Proof.
    intros Hne. destruct (reduce_Per p t W HP) as (m & Hm & Hr). fold xk in Hr. rewrite per_end in Hr.
    assert (H0 : nth 0 xk 0 < pw_reduce p t) by (destruct Hr as [[?|E] _]; [lra|congruence]).
    split; [lra|].
    exists (Rmin (pw_reduce p t - nth 0 xk 0) (nth (nk - 1) xk 0 - pw_reduce p t)), (IZR m * per_len p).
    split; [apply Rmin_glb_lt; lra|]. split; [exact Hm|]. intros u Hu. apply (reduce_unique p _ _ m W HP); auto.
    fold xk. rewrite per_end.
    pose proof (Rmin_l (pw_reduce p t - nth 0 xk 0) (nth (nk - 1) xk 0 - pw_reduce p t)).
    pose proof (Rmin_r (pw_reduce p t - nth 0 xk 0) (nth (nk - 1) xk 0 - pw_reduce p t)).
    apply Rabs_def2 in Hu. lra.
  Qed.
  Lemma per_inner_knot t j : nth 0 xk 0 < t < nth (nk - 1) xk 0 -> (j < nk)%nat -> t = nth j xk 0 -> (1 <= j < nk - 1)%nat.
  Proof.
    intros Ht Hj E. destruct j as [|j]; [lra|]. split; [lia|]. destruct (Nat.eq_dec (S j) (nk - 1)) as [E'|]; [|lia].
    rewrite E' in E. lra.
  Qed.
  Variable h : nat.
  Hypothesis Min : forall j k, (1 <= j < nk - 1)%nat -> (k <= h)%nat -> match_at p comp j k.
  Hypothesis Mend : forall k, (k <= h)%nat -> per_match p comp k.
  Lemma perg_smooth : derivs_upto h (pw_val p comp) perg.
  Proof.
    split; [exact perg_0|]. split; intros k t Hk; destruct (Req_dec (pw_reduce p t) (nth 0 xk 0)) as [E|E].
    - destruct (per_near t E) as (e & He & L & G & V).
      pose proof (Mend k ltac:(lia)) as M. pose proof (Mend (S k) ltac:(lia)) as M'.
      apply (dpl_glue _ (fun u => INR (fact k) * tay k (ccol (pc p) comp (nk - 1)) (u - (t - (nth (nk - 1) xk 0 - nth (nk - 2) xk 0))))
                        (fun u => INR (fact k) * tay k (ccol (pc p) comp 1) (u - t)) t _ e He).
      + intros u Hu. apply L; auto.
      + intros u Hu. apply G; auto.
      + cbv beta. replace (t - (t - (nth (nk - 1) xk 0 - nth (nk - 2) xk 0))) with (nth (nk - 1) xk 0 - nth (nk - 2) xk 0) by ring.
        unfold per_match in M. fold xk nk in M. rewrite M. replace (t - t) with 0 by ring. rewrite tay_at_0. reflexivity.
      + rewrite (L (S k) t) by (auto; lra). apply dpl_tay.
      + rewrite V. pose proof (dpl_tay k (ccol (pc p) comp 1) t t) as D. replace (t - t) with 0 in D by ring.
        rewrite tay_at_0 in D. exact D.
    - destruct (per_inner t E) as (Ht & e & z & He & Hz & Hl).
      apply (dpl_local _ (fun u => pder p comp k (u - z)) t _ e He).
      + intros u Hu. unfold perg. rewrite Hl; auto.
      + unfold perg. rewrite Hz. rewrite <- (Rmult_1_r (pder p comp (S k) (t - z))).
        apply (derivable_pt_lim_comp (fun u => u - z) (pder p comp k)).
        * replace 1 with (1 - 0) by ring. apply derivable_pt_lim_minus; [apply derivable_pt_lim_id|apply derivable_pt_lim_const].
        * apply pder_dpl; [apply W|]. intros j Hj Ej. rewrite <- Hz in Ej. pose proof (per_inner_knot _ j Ht Hj Ej).
          split; apply Min; auto; lia.
    - destruct (per_near t E) as (e & He & L & G & V). pose proof (Mend k Hk) as M.
      apply (cont_glue _ (fun u => INR (fact k) * tay k (ccol (pc p) comp (nk - 1)) (u - (t - (nth (nk - 1) xk 0 - nth (nk - 2) xk 0))))
                        (fun u => INR (fact k) * tay k (ccol (pc p) comp 1) (u - t)) t e He).
      + intros u Hu. apply L; auto.
      + intros u Hu. apply G; auto.
      + cbv beta. replace (t - (t - (nth (nk - 1) xk 0 - nth (nk - 2) xk 0))) with (nth (nk - 1) xk 0 - nth (nk - 2) xk 0) by ring.
        unfold per_match in M. fold xk nk in M. rewrite M. replace (t - t) with 0 by ring. rewrite tay_at_0. reflexivity.
      + apply cont_tay.
      + apply cont_tay.
    - destruct (per_inner t E) as (Ht & e & z & He & Hz & Hl).
      apply (cont_local _ (fun u => pder p comp k (u - z)) t e He).
      + intros u Hu. unfold perg. rewrite Hl; auto.
      + apply (continuity_pt_comp (fun u => u - z) (pder p comp k)).
        * apply derivable_continuous_pt. eexists. apply derivable_pt_lim_minus; [apply derivable_pt_lim_id|apply derivable_pt_lim_const].
        * apply pder_cont; [apply W|]. intros j Hj Ej. rewrite <- Hz in Ej. pose proof (per_inner_knot _ j Ht Hj Ej).
          apply Min; auto.
  Qed.
End PerSmooth.
