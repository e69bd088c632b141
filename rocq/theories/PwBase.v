(* Basic facts about piecewise polynomials over the reals: pieces, evaluation,
   well-formedness, continuity. *)
From Coq Require Import Reals List Arith Lia Lra ZArith Bool.
From Verif Require Import Num PyBase NdArray Poly SpecPoly PolyProofs PwPoly.
Import ListNotations.
Local Open Scope R_scope.

Lemma incr_lt l i j : incr l -> (i < j < length l)%nat -> nth i l 0 < nth j l 0.
Proof.
  intros H [Hij Hj]. induction j as [|j IH]; [lia|].
  destruct (Nat.eq_dec i j) as [->|Hn]; [apply H; lia|].
  apply Rlt_trans with (nth j l 0); [apply IH; lia|apply H; lia].
Qed.
Lemma incr_le l i j : incr l -> (i <= j < length l)%nat -> nth i l 0 <= nth j l 0.
Proof.
  intros H Hij. destruct (Nat.eq_dec i j) as [->|Hn]; [lra|].
  left; apply incr_lt; auto; lia.
Qed.
Lemma incr_inj l i j : incr l -> (i < length l)%nat -> (j < length l)%nat ->
  nth i l 0 = nth j l 0 -> i = j.
Proof.
  intros H Hi Hj E. destruct (lt_eq_lt_dec i j) as [[L| ->]|L]; auto.
  - pose proof (incr_lt l i j H). lra || (assert (nth i l 0 < nth j l 0) by (apply incr_lt; auto); lra).
  - assert (nth j l 0 < nth i l 0) by (apply incr_lt; auto). lra.
Qed.
Lemma incr_tl a l : incr (a :: l) -> incr l.
Proof. intros H i Hi. apply (H (S i)). cbn; lia. Qed.

(* searchsorted finds the piece *)
Lemma ssearch_le (l : list R) x : (ssearch l x <= length l)%nat.
Proof.
  induction l as [|a l IH]; cbn; [lia|]. numR. destruct (Rltb a x); lia.
Qed.
Lemma ssearch_piece l x : incr l -> in_piece l (ssearch l x) x.
Proof.
  induction l as [|a l IH]; intros H; cbn [ssearch].
  - split; [cbn; lia|]. split; intros; [lia|cbn in *; lia].
  - numR. destruct (Rltb_spec a x) as [Hx|Hx].
    + destruct (IH (incr_tl _ _ H)) as (I1 & I2 & I3). split; [cbn; lia|]. split.
      * intros [|j] Hj; cbn [nth]; [exact Hx|]. apply I2; lia.
      * intros [|j] Hj; [lia|]. cbn [nth]. apply I3. cbn in Hj; lia.
    + split; [cbn; lia|]. split; [intros; lia|].
      intros j Hj. apply Rle_trans with a; [lra|].
      apply (incr_le (a :: l) 0 j); auto; lia.
Qed.
Lemma in_piece_unique l i j x : in_piece l i x -> in_piece l j x -> i = j.
Proof.
  intros (A1 & A2 & A3) (B1 & B2 & B3).
  destruct (lt_eq_lt_dec i j) as [[L| ->]|L]; auto.
  - pose proof (B2 i L). pose proof (A3 i ltac:(lia)). lra.
  - pose proof (A2 j L). pose proof (B3 j ltac:(lia)). lra.
Qed.
Lemma ssearch_unique l i x : incr l -> in_piece l i x -> ssearch l x = i.
Proof. intros H1 H2. apply (in_piece_unique l _ _ x); auto. apply ssearch_piece; auto. Qed.
Lemma in_piece_knot l j : incr l -> (j < length l)%nat -> in_piece l j (nth j l 0).
Proof.
  intros H Hj. split; [lia|]. split; intros k Hk.
  - apply incr_lt; auto.
  - apply incr_le; auto.
Qed.

(* PwPoly.__call__ before any period reduction *)
Definition base (p : pwpoly R) (comp : list nat) (x : R) : R :=
  let i := ssearch (pxk p) x in
  peval (ccol (pc p) comp i) (x - nth i (pxk0 p) 0).
Lemma pw_val_base p comp x : pw_val p comp x = base p comp (pw_reduce p x).
Proof. unfold pw_val, base. cbv zeta. rewrite horner_peval. reflexivity. Qed.
Lemma pw_reduce_Pw (p : pwpoly R) x : pcl p = Pw -> pw_reduce p x = x.
Proof. unfold pw_reduce. intros ->. reflexivity. Qed.

(* the columns PerPwPoly overrides are already what it would write *)
Definition cons_cols (xk : list R) (c : carr R) : Prop :=
  forall comp, inb comp (csh c) ->
    ccol c comp 0%nat = ccol c comp 1%nat /\
    ccol c comp (ck c - 1)%nat =
      pshift (ccol c comp (ck c - 2)%nat)
             (nth (length xk - 1) xk 0 - nth (length xk - 2) xk 0).

Record carr_wf (c : carr R) : Prop := {
  cwf_n : (1 <= cn c)%nat;
  cwf_col : forall comp i, inb comp (csh c) -> (i < ck c)%nat -> length (ccol c comp i) = cn c
}.
Record pw_wf (p : pwpoly R) : Prop := {
  wf_c : carr_wf (pc p);
  wf_len : length (pxk0 p) = ck (pc p);
  wf_nk : (1 <= length (pxk p))%nat;
  wf_first : nth 0 (pxk0 p) 0 = nth 0 (pxk p) 0;
  wf_inc : incr (pxk p);
  wf_per : pcl p = Per ->
    (2 <= length (pxk p))%nat /\
    pper p = Some (nth (length (pxk p) - 1) (pxk p) 0 - nth 0 (pxk p) 0) /\
    cons_cols (pxk p) (pc p)
}.

Lemma pxk_length p : pw_wf p -> length (pxk0 p) = S (length (pxk p)).
Proof.
  intros [_ _ H _ _ _]. unfold pxk in *. destruct (pxk0 p); cbn in *; lia.
Qed.
Lemma pxk0_S (p : pwpoly R) i : nth (S i) (pxk0 p) 0 = nth i (pxk p) 0.
Proof. unfold pxk. destruct (pxk0 p); cbn; [destruct i; reflexivity|reflexivity]. Qed.
Lemma ck_eq p : pw_wf p -> ck (pc p) = S (length (pxk p)).
Proof. intros H. rewrite <- (wf_len p H). apply pxk_length; auto. Qed.
Lemma pw_ok_wf p : pw_wf p -> pw_ok p = Ok tt.
Proof.
  intros H. unfold pw_ok. pose proof (cwf_n _ (wf_c p H)). pose proof (ck_eq p H).
  rewrite (wf_len p H), Nat.eqb_refl.
  destruct (Nat.eqb_spec (cn (pc p)) 0); [lia|]. destruct (Nat.eqb_spec (ck (pc p)) 0); [lia|].
  cbn. destruct (pcl p) eqn:E; [reflexivity|].
  destruct (wf_per p H E) as (_ & -> & _). reflexivity.
Qed.
Lemma pw_call_wf p comp x : pw_wf p -> pw_call p comp x = Ok (pw_val p comp x).
Proof. intros H. unfold pw_call. rewrite pw_ok_wf by assumption. reflexivity. Qed.

Lemma base_piece p comp i x : incr (pxk p) -> in_piece (pxk p) i x ->
  base p comp x = peval (ccol (pc p) comp i) (x - nth i (pxk0 p) 0).
Proof. intros H1 H2. unfold base. rewrite (ssearch_unique _ i); auto. Qed.

(* interior of piece i *)
Definition inside (xk : list R) (i : nat) (x : R) : Prop :=
  (i <= length xk)%nat /\
  (forall j, (j < i)%nat -> nth j xk 0 < x) /\
  (forall j, (i <= j < length xk)%nat -> x < nth j xk 0).
Lemma inside_piece xk i x : inside xk i x -> in_piece xk i x.
Proof. intros (A & B & C). split; auto. split; auto. intros j Hj. left; auto. Qed.
Lemma piece_inside xk i x : in_piece xk i x -> ~ is_knot xk x -> inside xk i x.
Proof.
  intros (A & B & C) N. split; auto. split; auto. intros j Hj.
  destruct (C j Hj) as [L|E]; auto. exfalso; apply N. exists j. split; [lia|auto].
Qed.
(* the interior is open *)
Lemma finite_gap (xk : list R) x n : (n <= length xk)%nat ->
  (forall j, (j < n)%nat -> nth j xk 0 <> x) ->
  exists eps, 0 < eps /\ forall j, (j < n)%nat -> eps <= Rabs (nth j xk 0 - x).
Proof.
  induction n as [|n IH]; intros Hn H.
  - exists 1. split; [lra|]. intros; lia.
  - destruct IH as (e & He & Hj); [lia|intros; apply H; lia|].
    exists (Rmin e (Rabs (nth n xk 0 - x))). split.
    + apply Rmin_glb_lt; auto. apply Rabs_pos_lt. specialize (H n ltac:(lia)). lra.
    + intros j Hlt. destruct (Nat.eq_dec j n) as [->|]; [apply Rmin_r|].
      apply Rle_trans with e; [apply Rmin_l|apply Hj; lia].
Qed.
Lemma inside_open xk i x : inside xk i x ->
  exists eps, 0 < eps /\ forall t, Rabs (t - x) < eps -> inside xk i t.
Proof.
  intros (A & B & C).
  destruct (finite_gap xk x (length xk)) as (e & He & Hj); [lia| |].
  - intros j Hj E. destruct (le_lt_dec i j) as [L|L].
    + specialize (C j ltac:(lia)). lra.
    + specialize (B j L). lra.
  - exists e. split; auto. intros t Ht. split; auto. split; intros j Hlt.
    + specialize (B j Hlt). specialize (Hj j ltac:(lia)).
      rewrite Rabs_left in Hj by lra. apply Rabs_def2 in Ht. lra.
    + specialize (C j Hlt). specialize (Hj j ltac:(lia)).
      rewrite Rabs_right in Hj by lra. apply Rabs_def2 in Ht. lra.
Qed.
(* just to the left of knot j we are in piece j (knot included), just to the
   right in piece j+1 *)
Lemma left_of_knot xk j : incr xk -> (j < length xk)%nat ->
  exists eps, 0 < eps /\ forall t, nth j xk 0 - eps < t <= nth j xk 0 -> in_piece xk j t.
Proof.
  intros H Hj. destruct j as [|j].
  - exists 1. split; [lra|]. intros t Ht. split; [lia|]. split; [intros; lia|].
    intros k Hk. apply Rle_trans with (nth 0 xk 0); [lra|]. apply incr_le; auto; lia.
  - exists (nth (S j) xk 0 - nth j xk 0). split; [specialize (H j Hj); lra|].
    intros t Ht. split; [lia|]. split; intros k Hk.
    + apply Rle_lt_trans with (nth j xk 0); [apply incr_le; auto; lia|lra].
    + apply Rle_trans with (nth (S j) xk 0); [lra|apply incr_le; auto; lia].
Qed.
Lemma right_of_knot xk j : incr xk -> (j < length xk)%nat ->
  exists eps, 0 < eps /\ forall t, nth j xk 0 < t < nth j xk 0 + eps -> in_piece xk (S j) t.
Proof.
  intros H Hj. destruct (le_lt_dec (length xk) (S j)) as [L|L].
  - exists 1. split; [lra|]. intros t Ht. split; [lia|]. split; intros k Hk; [|lia].
    apply Rle_lt_trans with (nth j xk 0); [apply incr_le; auto; lia|lra].
  - exists (nth (S j) xk 0 - nth j xk 0). split; [specialize (H j L); lra|].
    intros t Ht. split; [lia|]. split; intros k Hk.
    + apply Rle_lt_trans with (nth j xk 0); [apply incr_le; auto; lia|lra].
    + apply Rle_trans with (nth (S j) xk 0); [lra|apply incr_le; auto; lia].
Qed.

(* local derivative from the piece *)
Lemma nderiv_comp_shift k f g a : nderiv k f g -> nderiv k (fun t => f (t - a)) (fun t => g (t - a)).
Proof.
  revert g; induction k as [|k IH]; intros g; cbn.
  - intros H x; apply H.
  - intros (h & H1 & H2). exists (fun t => h (t - a)). split; [apply IH; auto|].
    intros x. specialize (H2 (x - a)). intros eps He. destruct (H2 eps He) as (d & Hd).
    exists d. intros u Hu1 Hu2. specialize (Hd u Hu1 Hu2).
    replace (x + u - a) with (x - a + u) by ring. exact Hd.
Qed.
Lemma nderiv_peval_shift k c a :
  nderiv k (fun t => peval c (t - a)) (fun t => INR (fact k) * tay k c (t - a)).
Proof. apply (nderiv_comp_shift k (peval c) (fun x => INR (fact k) * tay k c x)). apply nderiv_tay. Qed.
Lemma base_local_nderiv p comp i x k : incr (pxk p) -> inside (pxk p) i x ->
  local_nderiv k (base p comp) x (INR (fact k) * tay k (ccol (pc p) comp i) (x - nth i (pxk0 p) 0)).
Proof.
  intros H Hi. destruct (inside_open _ _ _ Hi) as (e & He & Ho).
  exists e, (fun t => peval (ccol (pc p) comp i) (t - nth i (pxk0 p) 0)).
  split; auto. split.
  - intros t Ht. apply base_piece; auto. apply inside_piece; auto.
  - eexists. split; [apply nderiv_peval_shift|reflexivity].
Qed.
Lemma local_nderiv_dpl f x v : local_nderiv 1 f x v -> derivable_pt_lim f x v.
Proof.
  intros (e & F & He & Hf & g & (h & H1 & H2) & <-). intros eps Heps.
  destruct (H2 x eps Heps) as (d & Hd).
  assert (Hm : 0 < Rmin d e) by (apply Rmin_glb_lt; auto; apply cond_pos).
  exists (mkposreal _ Hm). cbn. intros u Hu1 Hu2.
  rewrite !Hf.
  - rewrite <- !H1. apply Hd; auto. apply Rlt_le_trans with (Rmin d e); auto. apply Rmin_l.
  - replace (x - x) with 0 by ring. rewrite Rabs_R0. auto.
  - replace (x + u - x) with u by ring. apply Rlt_le_trans with (Rmin d e); auto. apply Rmin_r.
Qed.

(* continuity *)
Lemma cont_local f F x e : 0 < e -> (forall t, Rabs (t - x) < e -> f t = F t) ->
  continuity_pt F x -> continuity_pt f x.
Proof.
  intros He E H eps Heps. destruct (H eps Heps) as (d & Hd & Hc).
  exists (Rmin d e). split; [apply Rmin_glb_lt; auto|]. intros t (Ht1 & Ht2). cbn in *. unfold R_dist in *.
  rewrite (E x) by (replace (x - x) with 0 by ring; rewrite Rabs_R0; auto).
  rewrite E by (apply Rlt_le_trans with (Rmin d e); auto; apply Rmin_r).
  apply Hc. split; auto. apply Rlt_le_trans with (Rmin d e); auto. apply Rmin_l.
Qed.
Lemma cont_glue f F G x e : 0 < e ->
  (forall t, x - e < t <= x -> f t = F t) -> (forall t, x < t < x + e -> f t = G t) ->
  F x = G x -> continuity_pt F x -> continuity_pt G x -> continuity_pt f x.
Proof.
  intros He EF EG E HF HG eps Heps.
  destruct (HF eps Heps) as (d1 & Hd1 & Hc1). destruct (HG eps Heps) as (d2 & Hd2 & Hc2).
  exists (Rmin (Rmin d1 d2) e). split; [repeat apply Rmin_glb_lt; auto|].
  intros t (Ht1 & Ht2). cbn in *. unfold R_dist in *.
  assert (L1 : Rabs (t - x) < d1) by (eapply Rlt_le_trans; [exact Ht2|]; eapply Rle_trans; [apply Rmin_l|apply Rmin_l]).
  assert (L2 : Rabs (t - x) < d2) by (eapply Rlt_le_trans; [exact Ht2|]; eapply Rle_trans; [apply Rmin_l|apply Rmin_r]).
  assert (L3 : Rabs (t - x) < e) by (eapply Rlt_le_trans; [exact Ht2|]; apply Rmin_r).
  apply Rabs_def2 in L3. rewrite (EF x) by lra.
  destruct (Rle_lt_dec t x) as [Hle|Hgt].
  - rewrite EF by lra. apply Hc1. split; auto.
  - rewrite EG by lra. rewrite E. apply Hc2. split; auto.
Qed.
Lemma peval_shift_cont c a x : continuity_pt (fun t => peval c (t - a)) x.
Proof.
  apply derivable_continuous_pt. exists (tay 1 c (x - a)).
  intros eps He. destruct (peval_deriv c (x - a) eps He) as (d & Hd). exists d.
  intros u H1 H2. specialize (Hd u H1 H2). replace (x + u - a) with (x - a + u) by ring. exact Hd.
Qed.

(* the two pieces meeting at knot j agree there in derivative k *)
Definition match_at (p : pwpoly R) (comp : list nat) (j k : nat) : Prop :=
  tay k (ccol (pc p) comp j) (nth j (pxk p) 0 - nth j (pxk0 p) 0) =
  nth k (ccol (pc p) comp (S j)) 0.
Lemma is_knot_dec l x : is_knot l x \/ ~ is_knot l x.
Proof.
  induction l as [|a l IH].
  - right. intros (j & Hj & _). cbn in Hj; lia.
  - destruct (Req_dec x a) as [->|Hn]; [left; exists 0%nat; cbn; split; [lia|auto]|].
    destruct IH as [(j & Hj & E)|N].
    + left. exists (S j). cbn. split; [lia|auto].
    + right. intros ([|j] & Hj & E); cbn in *; [auto|]. apply N. exists j. split; [lia|auto].
Qed.
Lemma base_knot p comp j : incr (pxk p) -> (j < length (pxk p))%nat ->
  base p comp (nth j (pxk p) 0) =
  peval (ccol (pc p) comp j) (nth j (pxk p) 0 - nth j (pxk0 p) 0).
Proof. intros H Hj. apply base_piece; auto. apply in_piece_knot; auto. Qed.
Lemma base_continuous_nonknot p comp x : incr (pxk p) -> ~ is_knot (pxk p) x ->
  continuity_pt (base p comp) x.
Proof.
  intros Hinc N.
  assert (Hi : inside (pxk p) (ssearch (pxk p) x) x) by (apply piece_inside; auto; apply ssearch_piece; auto).
  destruct (inside_open _ _ _ Hi) as (e & He & Ho).
  apply (cont_local _ (fun t => peval (ccol (pc p) comp (ssearch (pxk p) x)) (t - nth (ssearch (pxk p) x) (pxk0 p) 0)) x e); auto.
  - intros t Ht. apply base_piece; auto. apply inside_piece; auto.
  - apply peval_shift_cont.
Qed.
Lemma base_continuous_knot p comp j : incr (pxk p) -> (j < length (pxk p))%nat ->
  (match_at p comp j 0 <-> continuity_pt (base p comp) (nth j (pxk p) 0)).
Proof.
  intros Hinc Hj. set (x := nth j (pxk p) 0).
  destruct (left_of_knot _ j Hinc Hj) as (e1 & He1 & L).
  destruct (right_of_knot _ j Hinc Hj) as (e2 & He2 & Rr). fold x in L, Rr.
  set (F := fun t => peval (ccol (pc p) comp j) (t - nth j (pxk0 p) 0)).
  set (G := fun t => peval (ccol (pc p) comp (S j)) (t - nth (S j) (pxk0 p) 0)).
  assert (EF : forall t, x - e1 < t <= x -> base p comp t = F t) by (intros; apply base_piece; auto).
  assert (EG : forall t, x < t < x + e2 -> base p comp t = G t) by (intros; apply base_piece; auto).
  assert (Hiff : match_at p comp j 0 <-> F x = G x).
  { unfold match_at, F, G. fold x. rewrite tay_0, pxk0_S. fold x.
    replace (x - x) with 0 by ring. rewrite peval_0. tauto. }
  rewrite Hiff. split.
  - intros E. apply (cont_glue _ F G x (Rmin e1 e2)).
    + apply Rmin_glb_lt; auto.
    + intros t Ht. apply EF. pose proof (Rmin_l e1 e2). lra.
    + intros t Ht. apply EG. pose proof (Rmin_r e1 e2). lra.
    + exact E.
    + apply peval_shift_cont.
    + apply peval_shift_cont.
  - intros Hc. destruct (Req_dec (F x) (G x)) as [|Hn]; auto. exfalso.
    set (eps := Rabs (F x - G x) / 2).
    assert (Heps : 0 < eps) by (unfold eps; pose proof (Rabs_pos_lt (F x - G x) ltac:(lra)); lra).
    destruct (Hc eps Heps) as (d1 & Hd1 & Hc1).
    destruct (peval_shift_cont (ccol (pc p) comp (S j)) (nth (S j) (pxk0 p) 0) x eps Heps) as (d2 & Hd2 & Hc2).
    set (d := Rmin (Rmin d1 d2) e2 / 2).
    assert (Hd : 0 < Rmin (Rmin d1 d2) e2) by (repeat apply Rmin_glb_lt; auto).
    pose proof (Rmin_l (Rmin d1 d2) e2). pose proof (Rmin_r (Rmin d1 d2) e2).
    pose proof (Rmin_l d1 d2). pose proof (Rmin_r d1 d2).
    specialize (Hc1 (x + d)). specialize (Hc2 (x + d)). cbn in Hc1, Hc2. unfold R_dist in *.
    assert (Hx : Rabs (x + d - x) = d) by (replace (x + d - x) with d by ring; apply Rabs_right; unfold d; lra).
    assert (D1 : Rabs (base p comp (x + d) - base p comp x) < eps).
    { apply Hc1. split; [split; [exact I|unfold d; lra]|]. rewrite Hx. unfold d; lra. }
    assert (D2 : Rabs (G (x + d) - G x) < eps).
    { apply Hc2. split; [split; [exact I|unfold d; lra]|]. rewrite Hx. unfold d; lra. }
    rewrite EG in D1 by (unfold d; lra). rewrite EF in D1 by lra.
    assert (Rabs (F x - G x) < eps + eps).
    { replace (F x - G x) with (- (G (x + d) - F x) + (G (x + d) - G x)) by ring.
      eapply Rle_lt_trans; [apply Rabs_triang|]. rewrite Rabs_Ropp. lra. }
    unfold eps in *. lra.
Qed.
Lemma base_continuous p comp : incr (pxk p) ->
  (forall j, (j < length (pxk p))%nat -> match_at p comp j 0) <->
  (forall x, continuity_pt (base p comp) x).
Proof.
  intros Hinc. split.
  - intros Hm x. destruct (is_knot_dec (pxk p) x) as [(j & Hj & ->)|N].
    + apply base_continuous_knot; auto.
    + apply base_continuous_nonknot; auto.
  - intros H j Hj. apply base_continuous_knot; auto.
Qed.

(* new/_rawinit on consistent data keeps the coefficients *)
Lemma rawinit_ok cl xk0 (c : carr R) :
  carr_wf c -> length xk0 = ck c -> (1 <= length (tl xk0))%nat ->
  nth 0 xk0 0 = nth 0 (tl xk0) 0 -> incr (tl xk0) ->
  (cl = Per -> (2 <= length (tl xk0))%nat /\ cons_cols (tl xk0) c) ->
  exists r, rawinit cl xk0 c = Ok r /\ pw_wf r /\ pcl r = cl /\ pxk0 r = xk0 /\
    csh (pc r) = csh c /\ ck (pc r) = ck c /\ cn (pc r) = cn c /\
    forall comp i, inb comp (csh c) -> (i < ck c)%nat -> ccol (pc r) comp i = ccol c comp i.
Proof.
  intros Hc HL Hn Hf Hi Hp. unfold rawinit. rewrite HL, Nat.eqb_refl.
  destruct cl.
  - eexists. split; [reflexivity|]. cbn. repeat split; auto; cbn; try (apply Hc); auto; discriminate.
  - destruct (Hp eq_refl) as (H2 & Hcons).
    destruct (Nat.ltb_spec (length (tl xk0)) 2); [lia|].
    pose proof (cwf_n _ Hc). destruct (Nat.eqb_spec (cn c) 0); [lia|].
    eexists. split; [reflexivity|].
    assert (Hck : (ck c >= 3)%nat) by (rewrite <- HL; destruct xk0; cbn in *; lia).
    assert (E : forall comp i, inb comp (csh c) -> (i < ck c)%nat ->
               ccol (per_fix (tl xk0) c) comp i = ccol c comp i).
    { intros comp i Hb Hlt. destruct (Hcons comp Hb) as (E0 & E1). cbn [per_fix ccol].
      destruct (Nat.eqb_spec i (ck c - 1)) as [->|Hne].
      - destruct (Nat.eqb_spec (ck c - 2) 0); [lia|]. rewrite E1. reflexivity.
      - destruct (Nat.eqb_spec i 0) as [->|]; auto. }
    assert (W : carr_wf (per_fix (tl xk0) c)).
    { split; [apply Hc|]. cbn [per_fix cn csh ck]. intros comp i Hb Hlt.
      change (length (ccol (per_fix (tl xk0) c) comp i) = cn c).
      rewrite E by auto. apply Hc; auto. }
    split; [|cbn [pcl pxk0 pc per_fix csh ck cn]; repeat split; auto].
    split; cbn [pcl pxk0 pc]; unfold pxk; cbn [pxk0]; auto.
    intros _. split; auto. split; [reflexivity|].
    intros comp Hb. cbn [per_fix csh ck] in *.
    change (ccol (per_fix (tl xk0) c) comp 0%nat = ccol (per_fix (tl xk0) c) comp 1%nat /\
            ccol (per_fix (tl xk0) c) comp (ck c - 1)%nat =
            pshift (ccol (per_fix (tl xk0) c) comp (ck c - 2)%nat)
                   (nth (length (tl xk0) - 1) (tl xk0) 0 - nth (length (tl xk0) - 2) (tl xk0) 0)).
    rewrite !E by (auto; lia). apply Hcons; auto.
Qed.
