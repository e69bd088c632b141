(* Riemann integral of a piecewise polynomial from an antiderivative. *)
From Coq Require Import Reals List Arith Lia Lra ZArith Bool.
From Coquelicot Require Import Coquelicot.
From Verif Require Import Num PyBase NdArray Poly SpecPoly PolyProofs PwPoly PwBase PwDeriv PwInteg.
Import ListNotations.
Local Open Scope R_scope.

Section FTC.
  Variables (xs : list R) (f F : R -> R) (g G : nat -> R -> R).
  Hypothesis Hinc : incr xs.
  Hypothesis Hn : (1 <= length xs)%nat.
  Hypothesis Fc : forall x, continuity_pt F x.
  Hypothesis Fd : forall x, ~ is_knot xs x -> derivable_pt_lim F x (f x).
  Hypothesis Gd : forall i x, derivable_pt_lim (G i) x (g i x).
  Hypothesis gc : forall i x, continuity_pt (g i) x.
  Hypothesis fg : forall i x, in_piece xs i x -> f x = g i x.

  Lemma ftc_piece i u v : u <= v ->
    (forall x, u < x < v -> in_piece xs i x /\ ~ is_knot xs x) -> is_RInt f u v (F v - F u).
  Proof.
    intros Huv Hin. destruct (Req_dec u v) as [->|Ne].
    { replace (F v - F v) with (@zero R_NormedModule) by (unfold zero; cbn; ring). apply @is_RInt_point. }
    assert (L : u < v) by lra.
    apply (is_RInt_ext (g i)).
    { intros x. rewrite Rmin_left, Rmax_right by lra. intros Hx. symmetry. apply fg, Hin, Hx. }
    assert (E : F v - F u = G i v - G i u).
    { destruct (MVT_gen (fun x => F x - G i x) u v (fun _ => 0)) as (c & _ & Hc).
      - intros x. rewrite Rmin_left, Rmax_right by lra. intros Hx.
        apply is_derive_Reals. destruct (Hin x Hx) as (Hi & Hk).
        replace 0 with (f x - g i x) by (rewrite (fg i x Hi); ring).
        apply derivable_pt_lim_minus; auto.
      - intros x _. apply continuity_pt_minus; auto. apply derivable_continuous_pt.
        exists (g i x). apply Gd.
      - lra. }
    rewrite E. apply (is_RInt_derive (V := R_CompleteNormedModule)).
    - intros x _. apply is_derive_Reals, Gd.
    - intros x _. apply continuity_pt_filterlim, gc.
  Qed.

  Lemma chasles a b c : is_RInt f a b (F b - F a) -> is_RInt f b c (F c - F b) -> is_RInt f a c (F c - F a).
  Proof.
    intros H1 H2. pose proof (is_RInt_Chasles _ _ _ _ _ _ H1 H2) as H.
    replace (F c - F a) with (plus (F b - F a) (F c - F b)) by (unfold plus; cbn; ring). exact H.
  Qed.
  Lemma swap a b : is_RInt f a b (F b - F a) -> is_RInt f b a (F a - F b).
  Proof.
    intros H1. pose proof (is_RInt_swap _ _ _ _ H1) as H.
    replace (F a - F b) with (opp (F b - F a)) by (unfold opp; cbn; ring). exact H.
  Qed.
  Lemma ftc_left i v : in_piece xs (S i) v -> is_RInt f (nth i xs 0) v (F v - F (nth i xs 0)).
  Proof.
    intros Hv. destruct Hv as (A & B & C). apply (ftc_piece (S i)).
    - left. apply (B i). lia.
    - intros x Hx.
      assert (P : in_piece xs (S i) x).
      { split; auto. split; intros j Hj.
        - apply Rle_lt_trans with (nth i xs 0); [|lra]. apply incr_le; auto; lia.
        - apply Rle_trans with v; [lra|]. apply C; auto. }
      split; auto. intros (j & Hj & ->). destruct P as (_ & B' & C').
      destruct (le_lt_dec j i).
      + pose proof (B' j ltac:(lia)). lra.
      + pose proof (C j ltac:(lia)). lra.
  Qed.
  Lemma ftc_knots i : (i < length xs)%nat -> is_RInt f (nth 0 xs 0) (nth i xs 0) (F (nth i xs 0) - F (nth 0 xs 0)).
  Proof.
    induction i as [|i IH]; intros Hi.
    - replace (F (nth 0 xs 0) - F (nth 0 xs 0)) with (@zero R_NormedModule) by (unfold zero; cbn; ring). apply @is_RInt_point.
    - apply (chasles _ (nth i xs 0)); [apply IH; lia|]. apply ftc_left.
      split; [lia|]. split; intros j Hj; [apply incr_lt; auto; lia|apply incr_le; auto; lia].
  Qed.
  Lemma ftc_from0 v : is_RInt f (nth 0 xs 0) v (F v - F (nth 0 xs 0)).
  Proof.
    pose proof (ssearch_piece xs v Hinc) as Hv. destruct (ssearch xs v) as [|i] eqn:E.
    - apply swap. destruct Hv as (A & B & C). apply (ftc_piece 0).
      + apply C; lia.
      + intros x Hx. assert (Hlt : forall j, (0 <= j < length xs)%nat -> x < nth j xs 0).
        { intros j Hj. apply Rlt_le_trans with (nth 0 xs 0); [lra|]. apply incr_le; auto; lia. }
        split; [split; [lia|split; [lia|]]|].
        * intros j Hj. left. apply Hlt; lia.
        * intros (j & Hj & ->). pose proof (Hlt j ltac:(lia)). lra.
    - apply (chasles _ (nth i xs 0)); [apply ftc_knots; destruct Hv; lia|]. apply ftc_left, Hv.
  Qed.
  Lemma ftc a b : is_RInt f a b (F b - F a).
  Proof. apply (chasles _ (nth 0 xs 0)); [apply swap|]; apply ftc_from0. Qed.
End FTC.

(* in the standard library's terms *)
Lemma integral_of_antideriv F p comp lbnd k : pw_wf p -> antideriv F p comp lbnd k ->
  forall a b, exists pr : Riemann_integrable (base p comp) a b, RiemannInt pr = base F comp b - base F comp a.
Proof.
  intros W A a b.
  assert (H : is_RInt (base p comp) a b (base F comp b - base F comp a)).
  { apply (ftc (pxk p) (base p comp) (base F comp)
       (fun i x => peval (ccol (pc p) comp i) (x - nth i (pxk0 p) 0))
       (fun i x => peval (icol (ccol (pc p) comp i)) (x - nth i (pxk0 p) 0))).
    - apply W.
    - apply W.
    - apply A.
    - apply A.
    - intros i x.
      assert (E : peval (ccol (pc p) comp i) (x - nth i (pxk0 p) 0)
                  = tay 1 (icol (ccol (pc p) comp i)) (x - nth i (pxk0 p) 0))
        by (rewrite <- dcol_peval, dcol_icol; reflexivity).
      rewrite E. clear E.
      replace (tay 1 (icol (ccol (pc p) comp i)) (x - nth i (pxk0 p) 0))
        with (tay 1 (icol (ccol (pc p) comp i)) (x - nth i (pxk0 p) 0) * (1 - 0)) by ring.
      apply (derivable_pt_lim_comp (fun x => x - nth i (pxk0 p) 0) (peval (icol (ccol (pc p) comp i)))).
      + apply derivable_pt_lim_minus; [apply derivable_pt_lim_id|apply derivable_pt_lim_const].
      + apply peval_deriv.
    - intros i x. apply peval_shift_cont.
    - intros i x Hi. apply base_piece; auto. apply W. }
  exists (ex_RInt_Reals_0 _ _ _ (ex_intro _ _ H)).
  rewrite <- RInt_Reals. apply is_RInt_unique, H.
Qed.
Lemma integral_ext (f g : R -> R) a b v : a <= b -> (forall x, a < x < b -> f x = g x) ->
  (exists pr : Riemann_integrable f a b, RiemannInt pr = v) ->
  exists pr : Riemann_integrable g a b, RiemannInt pr = v.
Proof.
  intros Hab E (pr & Hv).
  assert (H : is_RInt g a b v).
  { apply (is_RInt_ext f).
    - intros x. rewrite Rmin_left, Rmax_right by lra. apply E.
    - rewrite <- Hv, <- RInt_Reals. apply (RInt_correct (V := R_CompleteNormedModule)).
      apply ex_RInt_Reals_1. exact pr. }
  exists (ex_RInt_Reals_0 _ _ _ (ex_intro _ _ H)).
  rewrite <- RInt_Reals. apply is_RInt_unique, H.
Qed.
