(* integ (npplus/pwpoly.py:366-410): facts over the reals. *)
From Coq Require Import Reals List Arith Lia Lra ZArith Bool.
From Verif Require Import Num PyBase NdArray Poly SpecPoly PolyProofs PwPoly PwBase PwDeriv.
Import ListNotations.
Local Open Scope R_scope.

(* ---- one column ---- *)
Lemma icol_length (c : list R) : length (icol c) = S (length c).
Proof. unfold icol. cbn [length]. rewrite zipw_length, seq_length. f_equal. lia. Qed.
Lemma dcol_nth (c : list R) k : (S k < length c)%nat -> nth k (dcol c) 0 = nth (S k) c 0 * INR (S k).
Proof.
  intros H. unfold dcol. rewrite (nth_zipw _ _ _ _ 0 0%nat).
  - rewrite seq_nth by lia. rewrite nofnat_R. destruct c; cbn [tl nth]; [cbn in H; lia|reflexivity].
  - destruct c; cbn in *; lia.
  - rewrite seq_length. lia.
Qed.
Lemma icol_nth (c : list R) k : (k < length c)%nat -> nth (S k) (icol c) 0 = nth k c 0 * (1 / INR (S k)).
Proof.
  intros H. unfold icol. cbn [nth]. rewrite (nth_zipw _ _ _ _ 0 0%nat) by (rewrite ?seq_length; lia).
  rewrite seq_nth by lia. rewrite nofnat_R. reflexivity.
Qed.
Lemma dcol_icol (c : list R) : dcol (icol c) = c.
Proof.
  apply list_eq_nth; [rewrite dcol_length, icol_length; lia|].
  intros i Hi. rewrite dcol_length, icol_length in Hi.
  rewrite dcol_nth by (rewrite icol_length; lia). rewrite icol_nth by lia.
  field. apply not_0_INR. lia.
Qed.
Lemma icol_0 (c : list R) : nth 0 (icol c) 0 = 0.
Proof. reflexivity. Qed.
Lemma add0_length (v : R) c : length (add0 v c) = length c.
Proof. destruct c; reflexivity. Qed.
Lemma add0_peval v c x : c <> [] -> peval (add0 v c) x = peval c x + v.
Proof. destruct c; [congruence|]. intros _. cbn [add0]. numR. rewrite !peval_cons. ring. Qed.
Lemma add0_nth0 v (c : list R) : c <> [] -> nth 0 (add0 v c) 0 = nth 0 c 0 + v.
Proof. destruct c; [congruence|]. reflexivity. Qed.
Lemma dcol_add0 (v : R) c : dcol (add0 v c) = dcol c.
Proof. destruct c; reflexivity. Qed.
Lemma icol_nonempty (c : list R) : icol c <> [].
Proof. discriminate. Qed.
Lemma add0_nonempty (v : R) c : c <> [] -> add0 v c <> [].
Proof. destruct c; [congruence|discriminate]. Qed.

Lemma continuity_pt_ext' (f g : R -> R) x : (forall t, f t = g t) -> continuity_pt f x -> continuity_pt g x.
Proof.
  intros E H. apply (cont_local g f x 1); [lra|intros; symmetry; apply E|exact H].
Qed.
Lemma dpl_local (f F : R -> R) x v e : 0 < e -> (forall t, Rabs (t - x) < e -> f t = F t) ->
  derivable_pt_lim F x v -> derivable_pt_lim f x v.
Proof.
  intros He E H eps Heps. destruct (H eps Heps) as (d & Hd).
  assert (Hm : 0 < Rmin d e) by (apply Rmin_glb_lt; auto; apply cond_pos).
  exists (mkposreal _ Hm). intros h Hh Hlt. cbn in Hlt.
  pose proof (Rmin_l d e). pose proof (Rmin_r d e).
  rewrite !E; [apply Hd; auto; lra| |].
  - replace (x - x) with 0 by ring. rewrite Rabs_R0. lra.
  - replace (x + h - x) with h by ring. lra.
Qed.

(* the object with the coefficients of p replaced *)
Definition with_c (p : pwpoly R) (c : carr R) : pwpoly R := PwP (pcl p) (pxk0 p) c (pper p).

(* F is an antiderivative of p (as PwPoly.__call__ evaluates them, i.e. before
   any period reduction), with value k at lbnd *)
Record antideriv (F p : pwpoly R) (comp : list nat) (lbnd k : R) : Prop := {
  ad_cont : forall x, continuity_pt (base F comp) x;
  ad_deriv : forall x, ~ is_knot (pxk p) x -> derivable_pt_lim (base F comp) x (base p comp x);
  ad_const : base F comp lbnd = k;
  ad_cols : forall i, (i < ck (pc p))%nat -> dcol (ccol (pc F) comp i) = ccol (pc p) comp i
}.

Section Step.
  Variable p : pwpoly R.
  Hypothesis W : pw_wf p.
  Variable lbnd : R.
  Variable kt : list nat -> R.
  Let ibnd := ssearch (pxk p) lbnd.
  Let lb := lbnd - nth ibnd (pxk0 p) 0.
  Let c' := integ1 (pxk p) ibnd lb kt (pc p).

  Let w comp := kt comp - peval (if (1 <? length (pxk p))%nat && (2 <=? ibnd)%nat
      then add0 (cums (fun j => horner (icol (ccol (pc p) comp (S j))) (dxs (pxk p) j)) (ibnd - 2)%nat) (icol (ccol (pc p) comp ibnd))
      else icol (ccol (pc p) comp ibnd)) lb.
  Let c2 comp i := if (1 <? length (pxk p))%nat && (2 <=? i)%nat
      then add0 (cums (fun j => horner (icol (ccol (pc p) comp (S j))) (dxs (pxk p) j)) (i - 2)%nat) (icol (ccol (pc p) comp i))
      else icol (ccol (pc p) comp i).

  Lemma integ1_col comp i : ccol c' comp i = add0 (w comp) (c2 comp i).
  Proof. unfold c', integ1. cbn [ccol]. unfold w. rewrite horner_peval. reflexivity. Qed.
  Lemma c2_nonempty comp i : c2 comp i <> [].
  Proof. unfold c2. destruct ((1 <? length (pxk p))%nat && (2 <=? i)%nat); [apply add0_nonempty|]; apply icol_nonempty. Qed.
  Lemma c2_length comp i : length (c2 comp i) = S (length (ccol (pc p) comp i)).
  Proof. unfold c2. destruct ((1 <? length (pxk p))%nat && (2 <=? i)%nat); rewrite ?add0_length, icol_length; reflexivity. Qed.
  Lemma c2_dcol comp i : dcol (c2 comp i) = ccol (pc p) comp i.
  Proof. unfold c2. destruct ((1 <? length (pxk p))%nat && (2 <=? i)%nat); rewrite ?dcol_add0, dcol_icol; reflexivity. Qed.
  Lemma integ1_dcol comp i : dcol (ccol c' comp i) = ccol (pc p) comp i.
  Proof. rewrite integ1_col, dcol_add0, c2_dcol. reflexivity. Qed.

  Lemma integ1_match comp j : (j < length (pxk p))%nat ->
    peval (ccol c' comp j) (nth j (pxk p) 0 - nth j (pxk0 p) 0) = nth 0 (ccol c' comp (S j)) 0.
  Proof.
    intros Hj. rewrite !integ1_col. rewrite add0_peval, add0_nth0 by apply c2_nonempty. f_equal.
    destruct j as [|[|j]].
    - rewrite (wf_first p W). replace (nth 0 (pxk p) 0 - nth 0 (pxk p) 0) with 0 by ring.
      rewrite peval_0. unfold c2. rewrite !andb_false_r. reflexivity.
    - unfold c2. destruct (Nat.ltb_spec 1 (length (pxk p))) as [L|L]; [|lia]. cbn [andb Nat.leb Nat.sub cums].
      rewrite add0_nth0, icol_0, horner_peval by apply icol_nonempty.
      rewrite pxk0_S. unfold dxs. numR. ring.
    - unfold c2. destruct (Nat.ltb_spec 1 (length (pxk p))) as [L|L]; [|lia]. cbn [andb Nat.leb].
      rewrite add0_nth0, icol_0, add0_peval by apply icol_nonempty.
      replace (S (S (S j)) - 2)%nat with (S j) by lia. replace (S (S j) - 2)%nat with j by lia.
      cbn [cums]. rewrite pxk0_S. rewrite horner_peval. unfold dxs. numR. ring.
  Qed.

  Lemma integ1_wf : pw_wf (with_c p c').
  Proof.
    assert (CW : carr_wf c').
    { split; [cbn; lia|]. intros comp i Hb Hi. rewrite integ1_col, add0_length, c2_length.
      cbn. f_equal. apply (wf_c p W); auto. }
    split; cbn [pc pxk0 pxk with_c pcl pper]; try apply W; auto.
    intros EP. destruct (wf_per p W EP) as (P1 & P2 & P3). split; auto. split; auto.
    assert (Hck : ck (pc p) = S (length (pxk p))) by (apply ck_eq; auto).
    assert (CK : ck c' = ck (pc p)) by reflexivity.
    assert (HX : pxk (with_c p c') = pxk p) by reflexivity. rewrite HX.
    intros comp Hb. change (csh c') with (csh (pc p)) in Hb. destruct (P3 comp Hb) as (E0 & E1). split.
    - rewrite !integ1_col. f_equal. unfold c2. rewrite !andb_false_r, E0. reflexivity.
    - rewrite CK. set (n := length (pxk p)) in *.
      assert (HN : forall i, (i < ck (pc p))%nat -> ccol c' comp i <> []).
      { intros i Hi E. apply (f_equal (@length R)) in E. rewrite (cwf_col _ CW) in E; auto. discriminate. }
      replace (ck (pc p) - 1)%nat with n in * by lia. replace (ck (pc p) - 2)%nat with (n - 1)%nat in * by lia.
      assert (HL1 : length (ccol c' comp n) = S (cn (pc p))) by (apply CW; auto; rewrite CK; lia).
      assert (HL2 : length (ccol c' comp (n - 1)%nat) = S (cn (pc p))) by (apply CW; auto; rewrite CK; lia).
      set (dx := nth (n - 1) (pxk p) 0 - nth (n - 2) (pxk p) 0) in *.
      (* same constant term, same derivative *)
      assert (Hd : dcol (ccol c' comp n) = dcol (pshift (ccol c' comp (n - 1)%nat) dx)).
      { rewrite integ1_dcol, E1, <- (integ1_dcol comp (n - 1)).
        pose proof (dcolm_pshift 1 (ccol c' comp (n - 1)%nat) dx (HN (n - 1)%nat ltac:(lia))) as D.
        cbn [dcolm] in D. rewrite pshift_length, HL2 in D by (apply HN; lia).
        pose proof (cwf_n _ (wf_c p W)).
        destruct (Nat.ltb_spec (S (cn (pc p))) 2); [lia|]. symmetry; exact D. }
      assert (H0 : nth 0 (ccol c' comp n) 0 = nth 0 (pshift (ccol c' comp (n - 1)%nat) dx) 0).
      { replace n with (S (n - 1)) at 1 by lia. rewrite <- integ1_match by lia.
        rewrite <- peval_0. rewrite pshift_peval by (apply HN; lia). f_equal. unfold dx.
        replace (n - 1)%nat with (S (n - 2)) at 2 by lia. rewrite pxk0_S. ring. }
      apply list_eq_nth; [rewrite pshift_length by (apply HN; lia); congruence|].
      intros i Hi. destruct i as [|i]; [exact H0|].
      apply (f_equal (fun l => nth i l 0)) in Hd.
      rewrite !dcol_nth in Hd by (rewrite ?pshift_length by (apply HN; lia); lia).
      apply Rmult_eq_reg_r in Hd; [exact Hd|apply not_0_INR; lia].
  Qed.
  Lemma integ1_antideriv comp : inb comp (csh (pc p)) -> antideriv (with_c p c') p comp lbnd (kt comp).
  Proof.
    intros Hb. split.
    - apply base_continuous; [apply W|]. intros j Hj. unfold match_at. rewrite tay_0.
      apply integ1_match. exact Hj.
    - intros x N. apply local_nderiv_dpl.
      assert (Hin : inside (pxk p) (ssearch (pxk p) x) x) by (apply piece_inside; auto; apply ssearch_piece, W).
      pose proof (base_local_nderiv (with_c p c') comp _ x 1 (wf_inc p W) Hin) as L.
      cbn [fact INR] in L. rewrite <- dcol_peval in L. cbn [with_c pc] in L. rewrite integ1_dcol in L.
      replace (INR (1 * 1)) with 1 in L by (cbn; ring). rewrite Rmult_1_l in L. exact L.
    - unfold base. change (pxk (with_c p c')) with (pxk p). fold ibnd.
      change (pc (with_c p c')) with c'. change (pxk0 (with_c p c')) with (pxk0 p). fold lb.
      rewrite integ1_col, add0_peval by apply c2_nonempty. unfold w, c2. ring.
    - intros i Hi. apply integ1_dcol.
  Qed.
End Step.

(* ---- the loop ---- *)
Lemma bto_rev_refl s : bto_rev s s = true.
Proof. induction s as [|a s IH]; cbn; auto. rewrite Nat.eqb_refl, IH. reflexivity. Qed.
Lemma bto_refl s : bto s s = true.
Proof. apply bto_rev_refl. Qed.

Lemma base_ext p q comp x : pxk0 p = pxk0 q ->
  ccol (pc p) comp (ssearch (pxk p) x) = ccol (pc q) comp (ssearch (pxk p) x) -> base p comp x = base q comp x.
Proof. intros E H. unfold base, pxk in *. rewrite <- E, H. reflexivity. Qed.

Lemma integ_loop_ok p lbnd ks : pw_wf p ->
  (forall kt, In kt ks -> shp kt = csh (pc p)) ->
  exists cs : nat -> carr R, cs O = pc p /\
    integ_loop (pxk p) (ssearch (pxk p) lbnd) (lbnd - nth (ssearch (pxk p) lbnd) (pxk0 p) 0) ks (pc p) = Ok (cs (length ks)) /\
    (forall t, (t <= length ks)%nat -> pw_wf (with_c p (cs t)) /\ csh (cs t) = csh (pc p) /\
        ck (cs t) = ck (pc p) /\ cn (cs t) = (cn (pc p) + t)%nat) /\
    (forall t comp, (t < length ks)%nat -> inb comp (csh (pc p)) ->
        antideriv (with_c p (cs (S t))) (with_c p (cs t)) comp lbnd (get (nth t ks (scalar 0)) comp)).
Proof.
  revert p. induction ks as [|kt ks IH]; intros p W Hk.
  - exists (fun _ => pc p). split; [reflexivity|]. split; [reflexivity|]. split.
    + intros t Ht. cbn in Ht. assert (t = 0)%nat by lia. subst. split; [|repeat split; lia].
      destruct p; exact W.
    + intros t comp Ht; cbn in Ht; lia.
  - cbn [integ_loop]. rewrite (Hk kt) by (left; reflexivity). rewrite bshape_refl, bto_refl.
    set (c1 := integ1 (pxk p) (ssearch (pxk p) lbnd) (lbnd - nth (ssearch (pxk p) lbnd) (pxk0 p) 0) (bget kt) (pc p)).
    pose proof (integ1_wf p W lbnd (bget kt)) as W1. fold c1 in W1.
    destruct (IH (with_c p c1) W1) as (cs & C0 & C1 & C2 & C3).
    { intros k2 H2. cbn. apply Hk. right; auto. }
    exists (fun t => match t with O => pc p | S t' => cs t' end). split; [reflexivity|]. split; [exact C1|]. split.
    + intros [|t] Ht.
      * split; [destruct p; exact W|]. repeat split; lia.
      * cbn in Ht. destruct (C2 t ltac:(lia)) as (A & B & C & D). split; [exact A|].
        cbn in B, C, D. repeat split; auto. rewrite D. lia.
    + intros [|t] comp Ht Hb.
      * rewrite C0. cbn [nth]. pose proof (integ1_antideriv p W lbnd (bget kt) comp Hb) as A. fold c1 in A.
        replace (get kt comp) with (bget kt comp); [destruct p; exact A|].
        unfold bget. rewrite bidx_self; auto. rewrite (Hk kt) by (left; reflexivity). exact Hb.
      * cbn [nth]. apply (C3 t comp); [cbn in Ht; lia|exact Hb].
Qed.

(* constants: k of shape d::s gives k[0..d-1] then zeros *)
Lemma bget_same {A} (a : nd A) idx : inb idx (shp a) -> bget a idx = get a idx.
Proof. intros H. unfold bget. rewrite bidx_self by auto. reflexivity. Qed.
Lemma integ_consts_list s m d k : shp k = d :: s -> (d <= m)%nat ->
  exists ks, integ_consts s m k = Ok ks /\ length ks = m /\
    (forall kt, In kt ks -> shp kt = s) /\
    forall t comp, (t < m)%nat -> inb comp s ->
      get (nth t ks (scalar 0)) comp = if (t <? d)%nat then get k (t :: comp) else 0.
Proof.
  intros Hs Hd. unfold integ_consts. unfold ndim. rewrite Hs. cbn [length].
  destruct (Nat.eqb_spec (S (length s)) (length s)); [lia|]. rewrite Hs.
  set (k2 := if (d <? m)%nat then _ else _).
  assert (S2 : shp k2 = m :: s).
  { unfold k2. destruct (Nat.ltb_spec d m); cbn; [reflexivity|]. rewrite Hs. f_equal. lia. }
  assert (G2 : forall t comp, (t < m)%nat -> inb comp s ->
     get k2 (t :: comp) = if (t <? d)%nat then get k (t :: comp) else 0).
  { intros t comp Ht Hc. unfold k2. destruct (Nat.ltb_spec d m).
    - cbn. numR. reflexivity.
    - destruct (Nat.ltb_spec t d); [reflexivity|lia]. }
  unfold nd_map2. cbn [full shp]. rewrite S2, bshape_refl. cbn [bind].
  eexists. split; [reflexivity|]. split; [rewrite map_length, seq_length; reflexivity|]. split.
  - intros kt Hin. apply in_map_iff in Hin. destruct Hin as (t & <- & _). reflexivity.
  - intros t comp Ht Hc. cbn [hd shp].
    rewrite (nth_indep _ (scalar 0) (nd_take 0 0 (Nd (m :: s) (fun idx => (bget (full (m :: s) n0) idx + bget k2 idx)%K))))
      by (rewrite map_length, seq_length; auto).
    rewrite (map_nth (fun t => nd_take 0 t (Nd (m :: s) (fun idx => (bget (full (m :: s) n0) idx + bget k2 idx)%K)))).
    rewrite seq_nth by auto. cbn [nd_take get insert_at Nat.add].
    rewrite (bget_same k2) by (rewrite S2; constructor; auto).
    rewrite G2 by auto. unfold bget; cbn. numR. ring.
Qed.
(* one constant of exactly the component shape *)
Lemma integ_consts_one s k : shp k = s ->
  exists ks, integ_consts s 1 k = Ok ks /\ length ks = 1%nat /\
    (forall kt, In kt ks -> shp kt = s) /\
    forall comp, inb comp s -> get (nth 0 ks (scalar 0)) comp = get k comp.
Proof.
  intros Hs. unfold integ_consts, ndim. rewrite Hs, Nat.eqb_refl. cbn [shp].
  cbn [Nat.ltb Nat.leb]. unfold nd_map2. cbn [full shp]. rewrite bshape_refl. cbn [bind].
  eexists. split; [reflexivity|]. split; [reflexivity|]. split.
  - intros kt [<-|[]]. reflexivity.
  - intros comp Hc. cbn [map seq hd shp nth nd_take get insert_at].
    rewrite (bget_same (Nd (1%nat :: s) (fun idx : list nat => get k (tl idx)))) by (cbn; constructor; auto).
    unfold bget; cbn. numR. ring.
Qed.

(* integ succeeds; chain of antiderivatives *)
Lemma integ_ok p m k lbnd ks : pw_wf p -> integ_consts (csh (pc p)) m k = Ok ks ->
  (forall kt, In kt ks -> shp kt = csh (pc p)) ->
  exists F (Fs : nat -> pwpoly R), integ p m k lbnd = Ok F /\ pw_wf F /\ pcl F = pcl p /\
    pxk0 F = pxk0 p /\ csh (pc F) = csh (pc p) /\ cn (pc F) = (cn (pc p) + length ks)%nat /\
    (forall comp x, inb comp (csh (pc p)) -> base F comp x = base (Fs (length ks)) comp x) /\
    Fs 0%nat = with_c p (pc p) /\
    (forall t, (t <= length ks)%nat -> pw_wf (Fs t) /\ pcl (Fs t) = pcl p /\ pxk0 (Fs t) = pxk0 p /\
       csh (pc (Fs t)) = csh (pc p) /\ ck (pc (Fs t)) = ck (pc p)) /\
    (forall comp i, inb comp (csh (pc p)) -> (i < ck (pc p))%nat -> ccol (pc F) comp i = ccol (pc (Fs (length ks))) comp i) /\
    (forall t comp, (t < length ks)%nat -> inb comp (csh (pc p)) ->
       antideriv (Fs (S t)) (Fs t) comp lbnd (get (nth t ks (scalar 0)) comp)).
Proof.
  intros W Hks Hsh. destruct (integ_loop_ok p lbnd ks W Hsh) as (cs & C0 & C1 & C2 & C3).
  unfold integ. pose proof (cwf_n _ (wf_c p W)). destruct (Nat.eqb_spec (cn (pc p)) 0); [lia|].
  rewrite Hks. cbn [bind]. numR. rewrite C1. cbn [bind].
  destruct (C2 (length ks) ltac:(lia)) as (Wm & Hcs & Hck & Hcn).
  destruct (rawinit_ok (pcl p) (pxk0 p) (cs (length ks))) as (F & E & WF & R1 & R2 & R3 & R4 & R5 & R6).
  - apply Wm.
  - rewrite Hck. apply W.
  - apply W.
  - apply W.
  - apply W.
  - intros EP. destruct (wf_per _ Wm EP) as (P1 & P2 & P3). split; auto.
  - exists F, (fun t => with_c p (cs t)). split; [exact E|]. split; auto. split; auto. split; auto.
    split; [congruence|]. split; [congruence|]. split.
    + intros comp x Hb. apply base_ext; [exact R2|].
      assert (HX : pxk F = pxk p) by (unfold pxk; rewrite R2; reflexivity). rewrite HX.
      rewrite R6; [reflexivity|rewrite Hcs; auto|]. rewrite Hck. apply piece_lt; auto.
    + split; [rewrite C0; reflexivity|]. split.
      * intros t Ht. destruct (C2 t Ht) as (A & B & C & D). split; [exact A|]; repeat split; auto.
      * split; [|exact C3]. intros comp i Hb Hi. rewrite R6; [reflexivity|rewrite Hcs; auto|rewrite Hck; auto].
Qed.
