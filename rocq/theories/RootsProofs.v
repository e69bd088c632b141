(* Facts about the model of PwPoly.roots (Roots.v) over the reals. *)
From Coq Require Import Reals List Arith Lia Lra ZArith Bool Relations.
From Verif Require Import Num PyBase NdArray Poly SpecPoly PolyProofs PwPoly PwBase PwDeriv Roots.
Import ListNotations.
Local Open Scope R_scope.

(* ---- coefficient lists ---- *)
Lemma scalec_length (d : R) l : length (scalec d l) = length l.
Proof. unfold scalec. rewrite zipw_length, seq_length. lia. Qed.
Lemma scalec_nth (d : R) l k : nth k (scalec d l) 0 = nth k l 0 * d ^ k.
Proof.
  destruct (le_lt_dec (length l) k) as [H|H].
  - rewrite !nth_overflow by (rewrite ?scalec_length; lia). ring.
  - unfold scalec. rewrite (nth_zipw _ _ _ _ 0 0%nat) by (rewrite ?seq_length; lia).
    rewrite seq_nth by lia. numR. rewrite npow_R. reflexivity.
Qed.
Lemma psum_scale (d s : R) l k :
  psum k (zipw (fun a j => a * npow d j)%K l (seq k (length l))) s = psum k l (s * d).
Proof.
  revert k; induction l as [|a l IH]; intros k; cbn [length seq zipw psum]; [reflexivity|].
  rewrite IH. numR. rewrite npow_R, Rpow_mult_distr. ring.
Qed.
Lemma scalec_peval (d s : R) l : peval (scalec d l) s = peval l (s * d).
Proof. apply (psum_scale d s l 0). Qed.

Lemma altern_aux n : forall l : list R, (length l <= n)%nat ->
  length (altern l) = length l /\ (forall x, peval (altern l) x = peval l (- x)) /\
  (Forall (fun a => a = 0) (altern l) -> Forall (fun a => a = 0) l).
Proof.
  induction n as [|n IH]; intros [|a [|b r]] H; cbn [altern length] in *; try lia;
    try (split; [reflexivity|]; split; [intros; rewrite ?peval_cons, ?peval_nil; ring|auto]).
  destruct (IH r) as (I1 & I2 & I3); [lia|]. split; [rewrite I1; reflexivity|]. split.
  - intros x. rewrite !peval_cons, I2. numR. ring.
  - intros F. inversion F as [|? ? F1 F2]; subst. inversion F2 as [|? ? F3 F4]; subst.
    constructor; [auto|]. constructor; [numR; lra|auto].
Qed.
Lemma altern_peval l x : peval (altern l) x = peval l (- x).
Proof. apply (altern_aux (length l) l (le_n _)). Qed.
Lemma altern_zero l : Forall (fun a => a = 0) (altern l) -> Forall (fun a => a = 0) l.
Proof. apply (altern_aux (length l) l (le_n _)). Qed.

(* Descartes: coefficients of one sign have no positive zero *)
Lemma sgnchg_false (l : list R) : sgnchg l = false ->
  Forall (fun a => 0 <= a) l \/ Forall (fun a => a < 0) l.
Proof.
  induction l as [|a [|b r] IH]; intros H.
  - left; constructor.
  - destruct (Rlt_dec a 0); [right|left]; (constructor; [lra|constructor]).
  - change (xorb (Rltb b 0) (Rltb a 0) || sgnchg (b :: r) = false)%bool in H.
    apply orb_false_elim in H. destruct H as (H1 & H2). destruct (IH H2) as [F|F].
    + left. constructor; auto. inversion F; subst.
      destruct (Rltb_spec b 0); [lra|]. destruct (Rltb_spec a 0); [discriminate|lra].
    + right. constructor; auto. inversion F; subst.
      destruct (Rltb_spec b 0); [|lra]. destruct (Rltb_spec a 0); [lra|discriminate].
Qed.
Lemma peval_nonneg l x : Forall (fun a => 0 <= a) l -> 0 < x -> 0 <= peval l x.
Proof.
  intros F Hx. induction F; [rewrite peval_nil; lra|]. rewrite peval_cons.
  pose proof (Rmult_le_pos x (peval l x)). lra.
Qed.
Lemma peval_nonneg_zero l x : Forall (fun a => 0 <= a) l -> 0 < x -> peval l x = 0 ->
  Forall (fun a => a = 0) l.
Proof.
  intros F Hx. induction F as [|a l H F IH]; intros E; [constructor|]. rewrite peval_cons in E.
  pose proof (peval_nonneg l x F Hx). pose proof (Rmult_le_pos x (peval l x)).
  assert (x * peval l x = 0) by lra. assert (peval l x = 0).
  { apply Rmult_integral in H2. lra. }
  constructor; [lra|auto].
Qed.
Lemma peval_neg l x : Forall (fun a => a < 0) l -> 0 < x -> l <> [] -> peval l x < 0.
Proof.
  intros F Hx. induction F as [|a l H F IH]; intros E; [congruence|]. rewrite peval_cons.
  destruct l as [|b l]; [rewrite peval_nil; lra|].
  assert (peval (b :: l) x < 0) by (apply IH; discriminate).
  pose proof (Rmult_lt_0_compat x (- peval (b :: l) x)). lra.
Qed.
Lemma descartes (l : list R) x : 0 < x -> peval l x = 0 -> sgnchg l = false ->
  Forall (fun a => a = 0) l.
Proof.
  intros Hx E H. destruct (sgnchg_false l H) as [F|F].
  - apply (peval_nonneg_zero l x); auto.
  - destruct l as [|a l]; [constructor|]. exfalso.
    pose proof (peval_neg _ x F Hx ltac:(discriminate)). lra.
Qed.
Lemma zero_peval l x : Forall (fun a => a = 0) l -> peval l x = 0.
Proof. induction 1; [reflexivity|]. rewrite peval_cons, IHForall. subst; ring. Qed.

(* ---- sorting and removing duplicates ---- *)
Inductive asc : list R -> Prop :=
| asc_nil : asc []
| asc_cons a l : Forall (fun b => a <= b) l -> asc l -> asc (a :: l).
Lemma ninsert_In (x y : R) l : In y (ninsert x l) <-> y = x \/ In y l.
Proof.
  induction l as [|a l IH]; cbn; [intuition|]. numR. destruct (Rleb x a); cbn; [intuition|].
  rewrite IH. intuition.
Qed.
Lemma nsort_In (y : R) l : In y (nsort l) <-> In y l.
Proof. unfold nsort. induction l as [|a l IH]; cbn; [tauto|]. rewrite ninsert_In, IH. intuition. Qed.
Lemma ninsert_asc (x : R) l : asc l -> asc (ninsert x l).
Proof.
  induction 1 as [|a l F A IH]; cbn; [repeat constructor|]. numR. destruct (Rleb_spec x a).
  - constructor; [|constructor; auto]. constructor; auto.
    eapply Forall_impl; [|exact F]. intros b Hb. cbn in Hb. lra.
  - constructor; auto. apply Forall_forall. intros y Hy. apply ninsert_In in Hy.
    destruct Hy as [->|Hy]; [lra|]. rewrite Forall_forall in F. auto.
Qed.
Lemma nsort_asc (l : list R) : asc (nsort l).
Proof. unfold nsort. induction l; cbn; [constructor|apply ninsert_asc; auto]. Qed.

Section Dedup.
  Variables (tol D : R) (dx : R -> R).
  Hypothesis Htol : 0 <= tol.
  Hypothesis Hdx : forall x, 0 < dx x <= D.
  (* b follows a closely; both in l *)
  Definition close (l : list R) (a b : R) : Prop :=
    In a l /\ In b l /\ a <= b <= a + tol * D.

  Lemma dedup_sub a l x : In x (dedup tol dx a l) -> In x l.
  Proof.
    revert a; induction l as [|b l IH]; intros a; [auto|]. cbn [dedup]. numR.
    destruct (Rltb _ _); cbn; [intros [<-|H]|]; eauto.
  Qed.
  Lemma dedup_incr a l : asc (a :: l) -> forall x, In x (dedup tol dx a l) -> a < x.
  Proof.
    revert a; induction l as [|b l IH]; intros a A x; [intros []|]. cbn [dedup]. numR.
    inversion A as [|? ? F A']; subst. inversion F; subst.
    destruct (Rltb_spec (tol * (1 / 2 * (dx b + dx a))) (b - a)) as [H|H]; cbn.
    - pose proof (Hdx a). pose proof (Hdx b).
      assert (0 <= tol * (1 / 2 * (dx b + dx a))) by (apply Rmult_le_pos; lra).
      intros [<-|Hx]; [lra|]. apply IH in Hx; auto. lra.
    - intros Hx. apply IH in Hx; auto. lra.
  Qed.
  Lemma dedup_sorted a l : asc (a :: l) -> incr (a :: dedup tol dx a l).
  Proof.
    assert (G : forall l a, asc (a :: l) -> forall z, z <= a -> incr (z :: dedup tol dx a l)).
    { clear a l. induction l as [|b l IH]; intros a A z Hz.
      - intros i Hi; cbn in Hi; lia.
      - cbn [dedup]. numR. inversion A as [|? ? F A']; subst. inversion F; subst.
        destruct (Rltb_spec (tol * (1 / 2 * (dx b + dx a))) (b - a)) as [H|H].
        + pose proof (Hdx a). pose proof (Hdx b).
          assert (0 <= tol * (1 / 2 * (dx b + dx a))) by (apply Rmult_le_pos; lra).
          intros [|i] Hi; cbn [nth]; [lra|]. cbn [length] in Hi.
          apply (IH b A' b (Rle_refl b) i). cbn [length]. lia.
        + apply IH; auto. lra. }
    intros A. apply G; auto. lra.
  Qed.
  Lemma dedup_chain a l : asc (a :: l) -> forall z, In z (a :: l) ->
    forall L, (forall y, In y (a :: l) -> In y L) ->
    exists y, In y (a :: dedup tol dx a l) /\ clos_refl_trans _ (close L) y z.
  Proof.
    revert a; induction l as [|b l IH]; intros a A z Hz L HL.
    - destruct Hz as [<-|[]]. exists a. split; [left; auto|apply rt_refl].
    - destruct Hz as [<-|Hz]; [exists a; split; [left; auto|apply rt_refl]|].
      inversion A as [|? ? F A']; subst. inversion F; subst.
      destruct (IH b A' z Hz L) as (y & Hy & C); [intros; apply HL; right; auto|].
      cbn [dedup]. numR.
      destruct (Rltb_spec (tol * (1 / 2 * (dx b + dx a))) (b - a)) as [H|H].
      + exists y. split; [right; exact Hy|exact C].
      + destruct Hy as [<-|Hy]; [|exists y; split; [right; exact Hy|exact C]].
        exists a. split; [left; auto|]. eapply rt_trans; [apply rt_step|exact C].
        split; [apply HL; left; auto|]. split; [apply HL; right; left; auto|]. split; [lra|].
        pose proof (Hdx a). pose proof (Hdx b).
        assert (tol * (1 / 2 * (dx b + dx a)) <= tol * D) by (apply Rmult_le_compat_l; lra). lra.
  Qed.
End Dedup.

(* ---- one piece ---- *)
Section Piece.
  Variables (p : pwpoly R) (v : R).
  Hypothesis W : pw_wf p.
  Hypothesis HP : pcl p = Pw.
  Hypothesis Hs : csh (pc p) = [].
  Let nk := length (pxk p).
  Let inb0 : inb [] (csh (pc p)).
  Proof. rewrite Hs. constructor. Qed.

  Lemma col_len i : (i <= nk)%nat -> length (ccol (pc p) [] i) = cn (pc p).
  Proof. intros H. apply (cwf_col _ (wf_c p W)); [apply inb0|]. rewrite (ck_eq p W). fold nk. lia. Qed.
  Lemma rt_col_length i : (i <= nk)%nat -> length (rt_col p v i) = cn (pc p).
  Proof.
    intros H. rewrite <- (col_len i H). unfold rt_col.
    destruct (ccol (pc p) [] i); reflexivity.
  Qed.
  Lemma rt_col_ne i : (i <= nk)%nat -> rt_col p v i <> [].
  Proof.
    intros H E. apply (f_equal (@length R)) in E. rewrite rt_col_length in E by auto.
    pose proof (cwf_n _ (wf_c p W)). cbn in E; lia.
  Qed.
  Lemma rt_col_peval i t : (i <= nk)%nat -> peval (rt_col p v i) t = peval (ccol (pc p) [] i) t - v.
  Proof.
    intros H. pose proof (col_len i H) as E. pose proof (cwf_n _ (wf_c p W)).
    unfold rt_col. destruct (ccol (pc p) [] i) as [|a r]; cbn in E; [lia|].
    rewrite !peval_cons. numR. ring.
  Qed.
  Lemma rt_dx_pos i : (i <= nk)%nat -> 0 < rt_dx p i.
  Proof.
    intros Hi. unfold rt_dx. fold nk. destruct (Nat.leb_spec nk 1); [numR; lra|].
    set (j := if (i =? 0)%nat then 1%nat else if (i <? nk)%nat then i else (nk - 1)%nat).
    assert (1 <= j < nk)%nat.
    { unfold j. destruct (Nat.eqb_spec i 0); [lia|]. destruct (Nat.ltb_spec i nk); lia. }
    numR. pose proof (wf_inc p W (j - 1)%nat ltac:(fold nk; lia)) as H1.
    replace (S (j - 1)) with j in H1 by lia. lra.
  Qed.
  Lemma rt_dx_mid i : (1 <= i < nk)%nat -> rt_dx p i = nth i (pxk p) 0 - nth (i - 1) (pxk p) 0.
  Proof.
    intros Hi. unfold rt_dx. fold nk. destruct (Nat.leb_spec nk 1); [lia|].
    destruct (Nat.eqb_spec i 0); [lia|]. destruct (Nat.ltb_spec i nk); [|lia]. reflexivity.
  Qed.
  Lemma rt_c_peval i s : (i <= nk)%nat ->
    peval (rt_c p v i) s = peval (ccol (pc p) [] i) (s * rt_dx p i) - v.
  Proof. intros H. unfold rt_c. rewrite scalec_peval. apply rt_col_peval; auto. Qed.
  Lemma val_piece i x : in_piece (pxk p) i x ->
    pw_val p [] x = peval (ccol (pc p) [] i) (x - nth i (pxk0 p) 0).
  Proof. intros H. rewrite pw_val_base, pw_reduce_Pw by auto. apply base_piece; [apply W|auto]. Qed.

  Hypothesis Hcont : forall x, continuity_pt (pw_val p []) x.
  Lemma Hmatch j : (j < nk)%nat -> match_at p [] j 0.
  Proof.
    intros Hj. apply base_continuous_knot; [apply W|exact Hj|].
    apply (cont_local _ (pw_val p []) _ 1); [lra| |apply Hcont].
    intros t _. rewrite pw_val_base, pw_reduce_Pw by auto. reflexivity.
  Qed.
  (* a zero of the scaled polynomial within its piece is a root *)
  Lemma piece_sound i xi : (i <= nk)%nat -> peval (rt_c p v i) xi = 0 ->
    (i = 0%nat -> xi <= 0) -> ((1 <= i)%nat -> 0 <= xi) -> ((1 <= i < nk)%nat -> xi <= 1) ->
    pw_val p [] (xi * rt_dx p i + nth i (pxk0 p) 0) = v.
  Proof.
    intros Hi E H0 H1 H2. rewrite rt_c_peval in E by auto.
    set (x := xi * rt_dx p i + nth i (pxk0 p) 0) in *. pose proof (rt_dx_pos i Hi) as Hd.
    assert (Hx : x - nth i (pxk0 p) 0 = xi * rt_dx p i) by (unfold x; ring).
    destruct i as [|i].
    - rewrite (val_piece 0); [rewrite Hx; lra|].
      specialize (H0 eq_refl). split; [lia|]. split; [intros; lia|]. intros j Hj.
      apply Rle_trans with (nth 0 (pxk p) 0); [|apply incr_le; [apply W|lia]].
      rewrite <- (wf_first p W). pose proof (Rmult_le_pos (- xi) (rt_dx p 0)). lra.
    - specialize (H1 ltac:(lia)). rewrite pxk0_S in *.
      destruct (Req_dec xi 0) as [E0|Hne].
      + assert (Ex : x = nth i (pxk p) 0) by (unfold x; rewrite E0, pxk0_S; ring).
        rewrite Ex. rewrite (val_piece i) by (apply in_piece_knot; [apply W|fold nk; lia]).
        pose proof (Hmatch i ltac:(lia)) as M. unfold match_at in M. rewrite tay_0 in M. rewrite M.
        rewrite E0, Rmult_0_l, peval_0 in E. lra.
      + rewrite (val_piece (S i)).
        { rewrite pxk0_S, Hx. lra. }
        assert (0 < xi) by lra. pose proof (Rmult_lt_0_compat xi (rt_dx p (S i)) ltac:(lra) Hd).
        split; [fold nk; lia|]. split; intros j Hj.
        * apply Rle_lt_trans with (nth i (pxk p) 0); [apply incr_le; [apply W|fold nk; lia]|lra].
        * fold nk in Hj. apply Rle_trans with (nth (S i) (pxk p) 0); [|apply incr_le; [apply W|fold nk; lia]].
          rewrite rt_dx_mid in Hx by lia. replace (S i - 1)%nat with i in Hx by lia.
          specialize (H2 ltac:(lia)).
          assert (xi * (nth (S i) (pxk p) 0 - nth i (pxk p) 0) <= 1 * (nth (S i) (pxk p) 0 - nth i (pxk p) 0)).
          { apply Rmult_le_compat_r; [|lra]. pose proof (wf_inc p W i ltac:(fold nk; lia)). lra. }
          lra.
  Qed.
  Lemma knots_sound x : In x (rt_knots p v) -> pw_val p [] x = v.
  Proof.
    unfold rt_knots. rewrite in_map_iff. intros (i & <- & H). apply filter_In in H.
    destruct H as (H & Hz). apply in_seq in H. fold nk in H. numR.
    destruct (Rleb_spec (nth 0 (rt_up p v i) 0 * nth 0 (rt_col p v (S i)) 0) 0) as [Hz'|]; [|discriminate].
    rewrite (val_piece i) by (apply in_piece_knot; [apply W|fold nk; lia]).
    pose proof (Hmatch i ltac:(lia)) as M. unfold match_at in M. rewrite tay_0 in M.
    unfold rt_up in Hz'. rewrite <- !peval_0 in Hz'.
    rewrite pshift_peval in Hz' by (apply rt_col_ne; lia). rewrite Rplus_0_r in Hz'.
    rewrite !rt_col_peval in Hz' by lia. numR. rewrite M in Hz'. rewrite peval_0 in Hz'.
    rewrite M. set (a := nth 0 (ccol (pc p) [] (S i)) 0) in *.
    assert ((a - v) * (a - v) = 0) by (pose proof (Rle_0_sqr (a - v)); unfold Rsqr in *; lra).
    apply Rmult_integral in H0. lra.
  Qed.
  (* every root at a knot is found *)
  Lemma knots_complete x : is_knot (pxk p) x -> pw_val p [] x = v -> In x (rt_knots p v).
  Proof.
    intros (i & Hi & ->) E. fold nk in Hi. unfold rt_knots. apply (in_map (fun i => nth i (pxk p) 0)).
    apply filter_In. split; [apply in_seq; fold nk; lia|]. numR.
    rewrite (val_piece i) in E by (apply in_piece_knot; [apply W|auto]).
    unfold rt_up. rewrite <- !peval_0. rewrite pshift_peval by (apply rt_col_ne; lia).
    rewrite Rplus_0_r. rewrite (rt_col_peval i) by lia. numR. rewrite E.
    destruct (Rleb_spec ((v - v) * peval (rt_col p v (S i)) 0) 0); [auto|].
    exfalso. apply n. replace (v - v) with 0 by ring. lra.
  Qed.
  (* a root strictly inside a piece survives the rule of signs *)
  Lemma piece_complete i x : inside (pxk p) i x -> pw_val p [] x = v ->
    (exists y, in_piece (pxk p) i y /\ pw_val p [] y <> v) ->
    let xi := (x - nth i (pxk0 p) 0) / rt_dx p i in
    rt_maybe p v i = true /\ peval (rt_c p v i) xi = 0 /\ (i = 0%nat -> xi < 0) /\
    ((1 <= i)%nat -> 0 < xi) /\ ((1 <= i < nk)%nat -> xi < 1) /\
    xi * rt_dx p i + nth i (pxk0 p) 0 = x.
  Proof.
    intros Hx E (y & Hy & Ny) xi. pose proof Hx as (Hi & Hlo & Hhi). fold nk in Hi, Hhi.
    pose proof (rt_dx_pos i Hi) as Hd.
    assert (Ex : xi * rt_dx p i = x - nth i (pxk0 p) 0) by (unfold xi; field; lra).
    assert (Z : peval (rt_c p v i) xi = 0).
    { rewrite rt_c_peval by auto. rewrite Ex. rewrite <- (val_piece i) by (apply inside_piece; auto). lra. }
    assert (NZ : ~ Forall (fun a => a = 0) (rt_col p v i)).
    { intros F. apply Ny. rewrite (val_piece i y Hy).
      pose proof (zero_peval _ (y - nth i (pxk0 p) 0) F) as Q. rewrite rt_col_peval in Q by auto. lra. }
    assert (NS : forall d l, d <> 0 -> Forall (fun a => a = 0) (scalec d l) -> Forall (fun a => a = 0) l).
    { intros d l Hdn F. apply Forall_forall. intros a Ha. apply (In_nth _ _ 0) in Ha.
      destruct Ha as (k & Hk & <-). rewrite Forall_forall in F.
      specialize (F (nth k (scalec d l) 0)). rewrite scalec_nth in F.
      assert (Q : nth k l 0 * d ^ k = 0).
      { apply F. rewrite <- scalec_nth. apply nth_In. rewrite scalec_length; auto. }
      apply Rmult_integral in Q. destruct Q as [|Q]; auto. exfalso. apply (pow_nonzero d k Hdn Q). }
    assert (X0 : (i = 0%nat -> xi < 0)).
    { intros ->. specialize (Hhi 0%nat). pose proof (wf_nk p W). fold nk in H.
      specialize (Hhi ltac:(lia)). rewrite (wf_first p W) in Ex.
      destruct (Rlt_dec xi 0); auto. exfalso. pose proof (Rmult_le_pos xi (rt_dx p 0)). lra. }
    assert (X1 : ((1 <= i)%nat -> 0 < xi)).
    { intros H1. destruct i as [|i]; [lia|]. specialize (Hlo i ltac:(lia)). rewrite pxk0_S in Ex.
      destruct (Rlt_dec 0 xi); auto. exfalso. pose proof (Rmult_le_pos (- xi) (rt_dx p (S i))). lra. }
    assert (X2 : ((1 <= i < nk)%nat -> xi < 1)).
    { intros H1. specialize (Hhi i ltac:(lia)). pose proof (rt_dx_mid i H1) as Hm.
      destruct i as [|i]; [lia|]. rewrite pxk0_S in Ex. replace (S i - 1)%nat with i in Hm by lia.
      destruct (Rlt_dec xi 1) as [|Hge]; auto. exfalso.
      assert (1 * rt_dx p (S i) <= xi * rt_dx p (S i)) by (apply Rmult_le_compat_r; lra). lra. }
    split; [|split; [exact Z|split; [exact X0|split; [exact X1|split; [exact X2|]]]]].
    2:{ rewrite Ex. ring. }
    unfold rt_maybe. fold nk. apply andb_true_intro. split; apply orb_true_iff.
    - destruct (Nat.eqb_spec i 0) as [|Hn]; [left; auto|right].
      destruct (sgnchg (rt_c p v i)) eqn:S; auto. exfalso. apply NZ.
      apply (NS (rt_dx p i)); [lra|]. apply (descartes _ xi); auto. apply X1; lia.
    - destruct (Nat.eqb_spec i nk) as [|Hn]; [left; auto|right].
      destruct (sgnchg _) eqn:S; auto. exfalso.
      set (dd := nth i (pxk p) 0 - nth i (pxk0 p) 0) in *.
      assert (F : Forall (fun a => a = 0) (rt_up p v i)).
      { apply (NS (rt_dx p i)); [lra|]. apply altern_zero.
        apply (descartes _ ((dd - (x - nth i (pxk0 p) 0)) / rt_dx p i)); auto.
        - apply Rdiv_lt_0_compat; auto. specialize (Hhi i ltac:(lia)). unfold dd. lra.
        - rewrite altern_peval, scalec_peval. unfold rt_up. rewrite pshift_peval by (apply rt_col_ne; auto).
          fold dd. numR. rewrite rt_col_peval by auto. rewrite (val_piece i) in E by (apply inside_piece; auto).
          replace (_ + _) with (x - nth i (pxk0 p) 0); [lra|].
          unfold dd. numR. field. lra. }
      apply NZ. apply peval_zero_coeffs. intros t.
      pose proof (zero_peval _ (t - dd) F) as Q. unfold rt_up in Q.
      rewrite pshift_peval in Q by (apply rt_col_ne; auto). rewrite <- Q. f_equal.
      unfold dd. numR. ring.
  Qed.

  (* the spacing used for the tolerance *)
  Lemma rt_dx_bound D : (nk = 1%nat -> 1 <= D) ->
    (forall i, (S i < nk)%nat -> nth (S i) (pxk p) 0 - nth i (pxk p) 0 <= D) ->
    forall i, rt_dx p i <= D.
  Proof.
    intros H1 H2 i. pose proof (wf_nk p W) as Hn. fold nk in Hn.
    unfold rt_dx. fold nk. destruct (Nat.leb_spec nk 1); [numR; apply H1; lia|].
    set (j := if (i =? 0)%nat then 1%nat else if (i <? nk)%nat then i else (nk - 1)%nat).
    assert (1 <= j < nk)%nat.
    { unfold j. destruct (Nat.eqb_spec i 0); [lia|]. destruct (Nat.ltb_spec i nk); lia. }
    numR. specialize (H2 (j - 1)%nat ltac:(lia)). replace (S (j - 1)) with j in H2 by lia. exact H2.
  Qed.
End Piece.
