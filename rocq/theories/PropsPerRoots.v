(* C126: roots of periodic piecewise polynomials.  PerPwPoly inherits roots from PwPoly, npplus/pwpoly.py:412-523; its outer
   pieces are those of _rawinit, npplus/pwpoly.py:804-811. *)
From Coq Require Import Reals List Arith Lia Lra ZArith Bool Relations.
From Verif Require Import Num PyBase NdArray Poly SpecPoly PolyProofs PwPoly PwBase PwDeriv Roots RootsProofs PropsPw PropsMixed PropsRoots.
Import ListNotations.
Local Open Scope R_scope.

(* roots does not look at the class *)
Lemma roots_unper eigreal (p : pwpoly R) v tol : roots eigreal p v tol = roots eigreal (unper p) v tol.
Proof. reflexivity. Qed.
Lemma base_unper (p : pwpoly R) comp x : base (unper p) comp x = base p comp x.
Proof. reflexivity. Qed.
Lemma val_unper (p : pwpoly R) comp x : pw_val (unper p) comp x = base p comp x.
Proof. rewrite pw_val_base, pw_reduce_Pw by reflexivity. apply base_unper. Qed.
Lemma val_in_period (p : pwpoly R) comp x : pw_wf p -> pcl p = Per -> nth 0 (pxk p) 0 <= x < nth (length (pxk p) - 1) (pxk p) 0 ->
  pw_val p comp x = base p comp x.
Proof. intros W E H. rewrite pw_val_base, reduce_base by auto. reflexivity. Qed.

(* two functions continuous at x that agree to the left of x agree at x *)
Lemma left_limit f g x e : 0 < e -> (forall t, x - e < t < x -> f t = g t) -> continuity_pt f x -> continuity_pt g x -> f x = g x.
Proof.
  intros He E Cf Cg. destruct (Req_dec (f x) (g x)) as [|N]; auto. exfalso. set (d := Rabs (f x - g x)).
  assert (Hd : 0 < d) by (apply Rabs_pos_lt; lra). destruct (Cf (d / 2) ltac:(lra)) as (e1 & P1 & Q1). destruct (Cg (d / 2) ltac:(lra)) as (e2 & P2 & Q2).
  set (m := Rmin e (Rmin e1 e2)). assert (0 < m /\ m <= e /\ m <= e1 /\ m <= e2) as (M0 & M1 & M2 & M3).
  { unfold m. pose proof (Rmin_l e (Rmin e1 e2)). pose proof (Rmin_r e (Rmin e1 e2)). pose proof (Rmin_l e1 e2). pose proof (Rmin_r e1 e2).
    repeat split; try lra. repeat apply Rmin_glb_lt; lra. }
  set (t := x - m / 2). assert (Ht : Rabs (t - x) < m) by (unfold t; rewrite Rabs_left; lra).
  assert (A1 : Rabs (f t - f x) < d / 2) by (apply Q1; split; [split; [exact I|unfold t; lra]|cbn; unfold R_dist; lra]).
  assert (A2 : Rabs (g t - g x) < d / 2) by (apply Q2; split; [split; [exact I|unfold t; lra]|cbn; unfold R_dist; lra]).
  rewrite E in A1 by (unfold t; lra). revert A1 A2. unfold d. unfold Rabs. repeat destruct Rcase_abs; lra.
Qed.

Lemma gap_pos xk i : (2 <= length xk)%nat -> incr xk -> 0 < piece_gap xk i.
Proof.
  intros L I. assert (G : 0 < nth (Nat.max 1 (Nat.min i (length xk - 1))) xk 0 - nth (Nat.max 1 (Nat.min i (length xk - 1)) - 1) xk 0).
  { pose proof (incr_lt xk (Nat.max 1 (Nat.min i (length xk - 1)) - 1) (Nat.max 1 (Nat.min i (length xk - 1))) I ltac:(lia)). lra. }
  unfold piece_gap. destruct xk as [|a [|b l]]; [exact G|cbn in L; lia|exact G].
Qed.
Section Per.
  Variable p : pwpoly R.
  Hypothesis W : pw_wf p.
  Hypothesis EP : pcl p = Per.
  Hypothesis Hs : csh (pc p) = [].
  Let nk := length (pxk p).
  Let x0 := nth 0 (pxk p) 0.
  Let xn := nth (nk - 1) (pxk p) 0.
  Lemma nk2 : (2 <= nk)%nat.
  Proof. apply (wf_per p W EP). Qed.
  Lemma inb0 : inb [] (csh (pc p)).
  Proof. rewrite Hs. constructor. Qed.
  Lemma outer_match : match_at p [] 0 0 /\ match_at p [] (nk - 1) 0.
  Proof.
    pose proof nk2 as N2. destruct (wf_per p W EP) as (_ & _ & C). destruct (C [] inb0) as (C0 & C1).
    pose proof (ck_eq p W) as CK. fold nk in CK.
    assert (NE : forall i, (i <= nk)%nat -> ccol (pc p) [] i <> []) by (intros i Hi; apply wf_col_nonempty; auto using inb0; lia).
    unfold match_at. split.
    - rewrite C0, (wf_first p W). replace (nth 0 (pxk p) 0 - nth 0 (pxk p) 0) with 0 by ring. rewrite tay_at_0. reflexivity.
    - replace (S (nk - 1)) with (ck (pc p) - 1)%nat by lia. rewrite C1, CK. replace (S nk - 2)%nat with (nk - 1)%nat by lia.
      rewrite <- (tay_at_0 0 (pshift _ _)), pshift_tay by (apply NE; lia). rewrite Rplus_0_r. f_equal. fold nk. replace (nk - 1)%nat with (S (nk - 2)) at 2 by lia. rewrite pxk0_S. reflexivity.
  Qed.
  Hypothesis Hc : forall x, continuity_pt (pw_val p []) x.
  Lemma all_match j : (j < nk)%nat -> match_at p [] j 0.
  Proof.
    intros Hj. pose proof nk2 as N2. destruct (Nat.eq_dec j 0) as [->|N0]; [apply outer_match|]. destruct (Nat.eq_dec j (nk - 1)) as [->|N1]; [apply outer_match|].
    apply base_continuous_knot; [apply W|exact Hj|]. set (y := nth j (pxk p) 0).
    assert (A : x0 < y) by (apply incr_lt; [apply W|fold nk; lia]). assert (B : y < xn) by (apply incr_lt; [apply W|fold nk; lia]).
    apply (cont_local _ (pw_val p []) _ (Rmin (y - x0) (xn - y))); [apply Rmin_glb_lt; lra| |apply Hc].
    intros t Ht. symmetry. apply val_in_period; auto. fold nk x0 xn. pose proof (Rmin_l (y - x0) (xn - y)). pose proof (Rmin_r (y - x0) (xn - y)).
    revert Ht. unfold Rabs. destruct Rcase_abs; lra.
  Qed.
  Lemma ext_cont x : continuity_pt (pw_val (unper p) []) x.
  Proof.
    apply (cont_local _ (base p []) _ 1); [lra|intros; apply val_unper|]. apply base_continuous; [apply W|]. exact all_match.
  Qed.
  (* the function and its extension agree on the closed period *)
  Lemma ext_period x : x0 <= x <= xn -> pw_call (unper p) [] x = pw_call p [] x.
  Proof.
    intros Hx. rewrite !pw_call_wf by auto using unper_wf. f_equal. rewrite val_unper. symmetry.
    destruct (Rlt_dec x xn) as [L|N]; [apply val_in_period; auto; fold nk x0 xn; lra|]. assert (x = xn) by lra. subst x.
    assert (x0 < xn) by (apply incr_lt; [apply W|pose proof nk2; fold nk; lia]).
    apply (left_limit _ _ xn (xn - x0)); [lra| |apply Hc|apply base_continuous; [apply W|exact all_match]].
    intros t Ht. apply val_in_period; auto. fold nk x0 xn. lra.
  Qed.
End Per.

(** ** C126 *)
(* For a continuous periodic piecewise linear function without a piece on which it is constantly v, the returned list is increasing,
   its elements in the closed base period are roots, and every root in the base period is in the list up to merging of near duplicates;
   if ValueError is raised the function does not take the value v at all.  Missing: elements outside the base period (see the
   refutation); here they are roots of the PwPoly with the same arrays. *)
Theorem C126_period_partial : forall eigreal (p : pwpoly R) (v tol D : R),
  pw_wf p -> pcl p = Per -> csh (pc p) = [] -> cn (pc p) = 2%nat ->
  (forall x, continuity_pt (pw_val p []) x) ->
  let x0 := nth 0 (pxk p) 0 in let xn := nth (length (pxk p) - 1) (pxk p) 0 in
  (forall i, (S i < length (pxk p))%nat -> exists y, nth i (pxk p) 0 < y < nth (S i) (pxk p) 0 /\ pw_call p [] y <> Ok v) ->
  0 < tol < 1 ->
  (forall i, (S i < length (pxk p))%nat -> nth (S i) (pxk p) 0 - nth i (pxk p) 0 <= D) ->
  let root x := pw_call p [] x = Ok v in
  let ext x := pw_call (PwP Pw (pxk0 p) (pc p) None) [] x = Ok v in
  (forall x, x0 <= x <= xn -> (ext x <-> root x)) /\
  match roots eigreal p v tol with
  | Ok xs => incr xs /\ (forall x, In x xs -> ext x) /\ (forall x, In x xs -> x0 <= x <= xn -> root x) /\
      (forall x, root x -> x0 <= x <= xn -> exists y, In y xs /\ stands_for ext (tol * D) y x)
  | Err e => e = ValueError /\ forall x, ~ root x
  end.
Proof.
  intros eigreal p v tol D W EP Hs Hn Hc x0 xn Hnz Ht HD root ext.
  pose proof (nk2 p W EP) as N2. set (nk := length (pxk p)) in *.
  assert (EQ : forall x, x0 <= x <= xn -> (ext x <-> root x)).
  { intros x Hx. unfold ext, root. fold (unper p). rewrite (ext_period p W EP Hs Hc x Hx). tauto. }
  split; [exact EQ|].
  assert (Inc : forall i j, (i < j < nk)%nat -> nth i (pxk p) 0 < nth j (pxk p) 0) by (intros; apply incr_lt; [apply W|auto]).
  assert (Inc' : forall i j, (i <= j < nk)%nat -> nth i (pxk p) 0 <= nth j (pxk p) 0) by (intros; apply incr_le; [apply W|auto]).
  (* the lines of the outer pieces are not constantly v either *)
  assert (NZ : forall i, (i <= nk)%nat -> exists y, in_piece (pxk (unper p)) i y /\ pw_call (unper p) [] y <> Ok v).
  { change (pxk (unper p)) with (pxk p).
    assert (IN : forall i y, (S i < nk)%nat -> nth i (pxk p) 0 < y < nth (S i) (pxk p) 0 -> in_piece (pxk p) (S i) y).
    { intros i y Hi Hy. split; [fold nk; lia|]. split; intros j Hj.
      - pose proof (Inc' j i ltac:(lia)). lra.
      - pose proof (Inc' (S i) j ltac:(fold nk in Hj; lia)). lra. }
    assert (VP : forall i y, in_piece (pxk p) i y -> pw_call (unper p) [] y = Ok (peval (ccol (pc p) [] i) (y - nth i (pxk0 p) 0))).
    { intros i y Hy. rewrite pw_call_wf by auto using unper_wf. rewrite val_unper. f_equal. apply base_piece; [apply W|auto]. }
    assert (Len : forall i, (i <= nk)%nat -> length (ccol (pc p) [] i) = 2%nat).
    { intros i Hi. rewrite (cwf_col _ (wf_c p W)); auto using inb0. rewrite (ck_eq p W). fold nk. lia. }
    assert (Ext : forall i y, (S i < nk)%nat -> nth i (pxk p) 0 < y < nth (S i) (pxk p) 0 -> pw_call (unper p) [] y = pw_call p [] y).
    { intros i y Hi Hy. apply (ext_period p W EP Hs Hc). fold nk. pose proof (Inc' 0%nat i ltac:(lia)). pose proof (Inc' (S i) (nk - 1)%nat ltac:(lia)). lra. }
    destruct (wf_per p W EP) as (_ & _ & C). destruct (C [] (inb0 p Hs)) as (C0 & C1). pose proof (ck_eq p W) as CK. fold nk in CK.
    assert (LIN : forall i, (i <= nk)%nat -> exists a b, ccol (pc p) [] i = [a; b]).
    { intros i Hi. pose proof (Len i Hi) as L. destruct (ccol (pc p) [] i) as [|a [|b [|]]]; cbn in L; try lia. eauto. }
    (* on an outer piece, two points cannot both have the value v unless the inner piece is constantly v *)
    assert (OUT : forall i, (i = 0 \/ i = nk)%nat -> exists y, in_piece (pxk p) i y /\ pw_call (unper p) [] y <> Ok v).
    { intros i Hi. set (q := match i with O => 1%nat | _ => (nk - 1)%nat end). assert (Hq : (1 <= q <= nk - 1)%nat) by (unfold q; destruct i; lia).
      destruct (Hnz (q - 1)%nat ltac:(lia)) as (z & Hz & Vz). replace (S (q - 1)) with q in Hz by lia.
      rewrite <- (Ext (q - 1)%nat z) in Vz by (try lia; replace (S (q - 1)) with q by lia; exact Hz).
      rewrite (VP q z) in Vz by (replace q with (S (q - 1)) by lia; apply IN; [lia|replace (S (q - 1)) with q by lia; exact Hz]).
      destruct (LIN q ltac:(lia)) as (a & b & Eq). rewrite Eq in Vz.
      assert (E : exists k, forall s, peval (ccol (pc p) [] i) s = a + (s + k) * b).
      { destruct Hi as [-> | ->].
        - exists 0. intros s. rewrite C0. unfold q in Eq. rewrite Eq. unfold peval; cbn. ring.
        - replace nk with (ck (pc p) - 1)%nat by lia. rewrite C1. assert (Eqn : q = (nk - 1)%nat) by (unfold q; destruct nk; [lia|reflexivity]).
          replace (ck (pc p) - 2)%nat with q by lia. rewrite Eq. exists (nth (length (pxk p) - 1) (pxk p) 0 - nth (length (pxk p) - 2) (pxk p) 0). intros s. rewrite pshift_peval by discriminate. unfold peval; cbn. ring. }
      destruct E as (k & E).
      set (e := nth i (pxk0 p) 0).
      assert (PT : exists y1 y2, y1 <> y2 /\ in_piece (pxk p) i y1 /\ in_piece (pxk p) i y2).
      { destruct Hi as [-> | ->].
        - exists (x0 - 1), (x0 - 2). split; [lra|]. split; (split; [fold nk; lia|]); (split; [intros j Hj; lia|]); intros j Hj; pose proof (Inc' 0%nat j ltac:(fold nk in Hj; lia)); fold x0 in H; lra.
        - exists (xn + 1), (xn + 2). split; [lra|]. split; (split; [fold nk; lia|]); (split; [|intros j Hj; fold nk in Hj; lia]); intros j Hj; pose proof (Inc' j (nk - 1)%nat ltac:(lia)); fold xn in H; lra. }
      destruct PT as (y1 & y2 & Ny & I1 & I2).
      destruct (Req_dec (a + (y1 - e + k) * b) v) as [E1|N1]; [|exists y1; split; auto; rewrite (VP i y1 I1), E; intros Q; injection Q; fold e; lra].
      destruct (Req_dec (a + (y2 - e + k) * b) v) as [E2|N3]; [|exists y2; split; auto; rewrite (VP i y2 I2), E; intros Q; injection Q; fold e; lra].
      exfalso. assert (b = 0) by (apply Rmult_eq_reg_l with (y1 - y2); lra). subst b. apply Vz. f_equal. unfold peval; cbn. lra. }
    intros i Hi. destruct (Nat.eq_dec i 0) as [->|N0]; [apply OUT; auto|]. destruct (Nat.eq_dec i nk) as [->|N1]; [apply OUT; auto|].
    destruct (Hnz (i - 1)%nat ltac:(lia)) as (z & Hz & Vz). exists z. split.
    - replace i with (S (i - 1)) by lia. apply IN; [lia|exact Hz].
    - rewrite (Ext (i - 1)%nat z ltac:(lia) Hz). exact Vz. }
  pose proof (C51_linear_roots eigreal (unper p) v tol D (unper_wf p W) eq_refl Hs Hn (ext_cont p W EP Hs Hc) NZ Ht) as T.
  change (pxk (unper p)) with (pxk p) in T. fold nk in T. specialize (T ltac:(lia) HD). cbv zeta in T. rewrite roots_unper.
  assert (GAP : forall i, 0 < piece_gap (pxk p) i).
  { intros i. apply gap_pos; [exact N2|apply W]. }
  assert (RE : forall x, x0 <= x <= xn -> within_reach tol (pxk p) x).
  { intros x Hx. unfold within_reach. fold x0. fold nk. fold xn. pose proof (GAP 0%nat). pose proof (GAP nk).
    assert (tol * (x0 - x) <= 0) by (replace (tol * (x0 - x)) with (- (tol * (x - x0))) by ring; assert (0 <= tol * (x - x0)) by (apply Rmult_le_pos; lra); lra).
    assert (tol * (x - xn) <= 0) by (replace (tol * (x - xn)) with (- (tol * (xn - x))) by ring; assert (0 <= tol * (xn - x)) by (apply Rmult_le_pos; lra); lra). lra. }
  destruct (roots eigreal (unper p) v tol) as [xs|e].
  - destruct T as (T1 & T2 & T3). split; [exact T1|]. split; [exact T2|]. split.
    + intros x Hx Hr. apply EQ; auto. apply T2; auto.
    + intros x Hr Hx. apply T3; auto. apply EQ; auto.
  - destruct T as (T1 & T2). split; [exact T1|]. intros x Hr.
    destruct (reduce_Per p x W EP) as (m & Hm & Hb1 & Hb2).
    assert (HB : x0 <= pw_reduce p x < xn) by (unfold x0, xn, nk; unfold per_len in Hb2; lra). apply (T2 (pw_reduce p x)).
    + apply EQ; [lra|]. unfold root in *. rewrite pw_call_wf in * by auto. rewrite pw_val_base in *. rewrite (reduce_base p (pw_reduce p x)); auto.
    + apply RE. lra.
Qed.
Print Assumptions C126_period_partial.

(* the polyline through (0, 1), (1, 2), (2, 1) with period 2 *)
Definition ex_hill : pwpoly R :=
  PwP Per [0; 0; 1; 2] (CArr 2 [] 4 (fun _ i => nth i [[1; 1]; [1; 1]; [2; -1]; [1; -1]] [])) (Some 2).
Example ex_hill_wf : pw_wf ex_hill.
Proof.
  split; cbn; try lia; try reflexivity.
  - split; cbn; [lia|]. intros comp i _ Hi. destruct i as [|[|[|[|i]]]]; cbn; reflexivity || lia.
  - intros [|[|i]] Hi; cbn in *; [lra|lra|lia].
  - intros _. split; [lia|]. split; [f_equal; ring|]. intros comp _. cbn. split; [reflexivity|].
    unfold pshift, taylor; cbn. numR. repeat (f_equal; try ring).
Qed.
Lemma hill_base x : 0 <= x <= 2 -> base ex_hill [] x = 2 - Rabs (x - 1).
Proof.
  intros Hx. destruct (Rle_dec x 0); [|destruct (Rle_dec x 1)].
  - rewrite (base_piece ex_hill [] 0); [|apply ex_hill_wf|].
    + unfold peval; cbn. rewrite Rabs_left; lra.
    + split; [cbn; lia|]. split; intros [|[|[|j]]] Hj; cbn in *; try lia; lra.
  - rewrite (base_piece ex_hill [] 1); [|apply ex_hill_wf|].
    + unfold peval; cbn. rewrite Rabs_left1; lra.
    + split; [cbn; lia|]. split; intros [|[|[|j]]] Hj; cbn in *; try lia; lra.
  - rewrite (base_piece ex_hill [] 2); [|apply ex_hill_wf|].
    + unfold peval; cbn. rewrite Rabs_right; lra.
    + split; [cbn; lia|]. split; intros [|[|[|j]]] Hj; cbn in *; try lia; lra.
Qed.
Lemma hill_call x : exists t (n : Z), t = x - IZR n * 2 /\ 0 <= t < 2 /\ pw_call ex_hill [] x = Ok (2 - Rabs (t - 1)).
Proof.
  destruct (reduce_Per ex_hill x ex_hill_wf eq_refl) as (n & Hn & Hb). unfold per_len in *. cbn [ex_hill pxk pxk0 tl length nth Nat.sub] in Hn, Hb.
  exists (pw_reduce ex_hill x), n. split; [rewrite Hn; ring|]. split; [lra|]. rewrite pw_call_wf by apply ex_hill_wf. rewrite pw_val_base, hill_base by lra. reflexivity.
Qed.
(* it is the distance-like function 2 - |t - 1| of t = x mod 2: continuous everywhere *)
Lemma hill_lip x y : Rabs (pw_val ex_hill [] x - pw_val ex_hill [] y) <= Rabs (x - y).
Proof.
  destruct (hill_call x) as (t & n & Et & Ht & V). destruct (hill_call y) as (u & m & Eu & Hu & V').
  rewrite pw_call_wf in V, V' by apply ex_hill_wf. injection V as ->. injection V' as ->.
  assert (X : x - y = (t - u) + IZR (n - m) * 2) by (rewrite minus_IZR; lra). rewrite X. set (k := (n - m)%Z). clearbody k.
  assert (k <= -1 \/ k = 0 \/ 1 <= k)%Z as [L|[->|L]] by lia.
  - apply IZR_le in L. revert L. generalize (IZR k). intros z L. unfold Rabs. repeat destruct Rcase_abs; lra.
  - unfold Rabs. repeat destruct Rcase_abs; lra.
  - apply IZR_le in L. revert L. generalize (IZR k). intros z L. unfold Rabs. repeat destruct Rcase_abs; lra.
Qed.
Lemma hill_cont x : continuity_pt (pw_val ex_hill []) x.
Proof. intros e He. exists e. split; [exact He|]. intros t (_ & Ht). cbn in *. unfold R_dist in *. pose proof (hill_lip t x). lra. Qed.
Lemma hill_pieces v i : (S i < length (pxk ex_hill))%nat -> exists y, nth i (pxk ex_hill) 0 < y < nth (S i) (pxk ex_hill) 0 /\ pw_call ex_hill [] y <> Ok v.
Proof.
  intros Hi.
  assert (V : forall y, 0 <= y < 2 -> pw_call ex_hill [] y = Ok (2 - Rabs (y - 1))).
  { intros y Hy. rewrite pw_call_wf by apply ex_hill_wf. rewrite val_in_period, hill_base by (try apply ex_hill_wf; try reflexivity; cbn; lra). reflexivity. }
  set (y1 := INR i + 1/4). set (y2 := INR i + 1/2). assert (0 <= y1 < 2 /\ 0 <= y2 < 2 /\ nth i (pxk ex_hill) 0 < y1 < nth (S i) (pxk ex_hill) 0 /\ nth i (pxk ex_hill) 0 < y2 < nth (S i) (pxk ex_hill) 0 /\ Rabs (y1 - 1) <> Rabs (y2 - 1)) as (A & B & C & D & E).
  { unfold y1, y2. destruct i as [|[|i]]; cbn in *; try lia; (repeat split; try lra); unfold Rabs; repeat destruct Rcase_abs; lra. }
  destruct (Req_dec (2 - Rabs (y1 - 1)) v) as [Ev|N]; [exists y2|exists y1]; (split; [auto|]); rewrite V by auto; intros Q; injection Q; lra.
Qed.
(* the hypotheses hold and roots finds 3/2 at both places of the period *)
Example C126_case : exists xs, roots eig_wit ex_hill (3/2) (1/10^9) = Ok xs /\ forall x, In x xs -> 0 <= x <= 2 -> pw_call ex_hill [] x = Ok (3/2).
Proof.
  destruct (C126_period_partial eig_wit ex_hill (3/2) (1/10^9) 1 ex_hill_wf eq_refl eq_refl eq_refl hill_cont (hill_pieces (3/2)) ltac:(lra)) as (_ & T).
  { intros [|[|i]] Hi; cbn in *; [lra|lra|lia]. }
  destruct (roots eig_wit ex_hill (3/2) (1/10^9)) as [xs|e].
  - exists xs. split; [reflexivity|]. intros x Hx Hr. apply (proj1 (proj2 (proj2 T))); auto.
  - exfalso. destruct T as (_ & T). apply (T (1/2)). rewrite pw_call_wf by apply ex_hill_wf.
    rewrite val_in_period, hill_base by (try apply ex_hill_wf; try reflexivity; cbn; lra). f_equal. rewrite Rabs_left; lra.
Qed.
(* roots of a periodic function that is never less than 1 returns points all the same: zeros of the lines beyond the base period *)
Theorem C126_outside_refuted : exists p : pwpoly R,
  pw_wf p /\ pcl p = Per /\ csh (pc p) = [] /\ (forall x, continuity_pt (pw_val p []) x) /\
  (forall x, exists y, pw_call p [] x = Ok y /\ 1 <= y) /\
  forall eigreal, exists x xs, roots eigreal p 0 (1/10^9) = Ok xs /\ In x xs.
Proof.
  exists ex_hill. split; [apply ex_hill_wf|]. split; [reflexivity|]. split; [reflexivity|]. split; [exact hill_cont|]. split.
  { intros x. destruct (hill_call x) as (t & n & _ & Ht & V). exists (2 - Rabs (t - 1)). split; [exact V|]. unfold Rabs. destruct Rcase_abs; lra. }
  intros eigreal.
  assert (E0 : forall x, x < 0 -> pw_call (unper ex_hill) [] x = Ok (1 + x)).
  { intros x Hx. rewrite pw_call_wf by apply unper_wf, ex_hill_wf. rewrite val_unper, (base_piece ex_hill [] 0); [|apply ex_hill_wf|].
    - f_equal. unfold peval; cbn. ring.
    - split; [cbn; lia|]. split; intros [|[|[|j]]] Hj; cbn in *; try lia; lra. }
  assert (NZ : forall i, (i <= length (pxk (unper ex_hill)))%nat -> exists y, in_piece (pxk (unper ex_hill)) i y /\ pw_call (unper ex_hill) [] y <> Ok 0).
  { intros i Hi. exists (nth i [-2; 1/2; 3/2; 5/2] 0). cbn in Hi.
    assert (I : in_piece (pxk ex_hill) i (nth i [-2; 1/2; 3/2; 5/2] 0)).
    { destruct i as [|[|[|[|i]]]]; try lia; (split; [cbn; lia|]); split; intros [|[|[|j]]] Hj; cbn in *; try lia; lra. }
    split; [exact I|]. rewrite pw_call_wf by apply unper_wf, ex_hill_wf. rewrite val_unper, (base_piece ex_hill [] i) by (apply ex_hill_wf || exact I).
    destruct i as [|[|[|[|i]]]]; try lia; unfold peval; cbn; intros Q; injection Q; lra. }
  pose proof (C51_linear_roots eigreal (unper ex_hill) 0 (1/10^9) 1 (unper_wf _ ex_hill_wf) eq_refl eq_refl eq_refl (ext_cont ex_hill ex_hill_wf eq_refl eq_refl hill_cont) NZ ltac:(lra)) as T.
  cbv zeta in T. rewrite roots_unper. specialize (T ltac:(lra)). destruct (roots eigreal (unper ex_hill) 0 (1/10^9)) as [xs|e].
  - destruct T as (_ & _ & T); [intros [|[|i]] Hi; cbn in *; [lra|lra|lia]|]. destruct (T (-1)) as (y & Hy & _); [rewrite E0 by lra; f_equal; lra| |exists y, xs; auto].
    split; unfold piece_gap; cbn; lra.
  - exfalso. destruct T as (_ & T); [intros [|[|i]] Hi; cbn in *; [lra|lra|lia]|]. apply (T (-1)); [rewrite E0 by lra; f_equal; lra|]. split; unfold piece_gap; cbn; lra.
Qed.
Print Assumptions C126_outside_refuted.
