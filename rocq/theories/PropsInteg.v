(* C34, C35: integ (npplus/pwpoly.py:366-410). *)
From Coq Require Import Reals List Arith Lia Lra ZArith.
From Verif Require Import Num PyBase NdArray Poly SpecPoly PolyProofs PwPoly PwBase PwDeriv PwInteg PwIntegral PropsPw.
Import ListNotations.
Local Open Scope R_scope.

(* F is the antiderivative of f that is continuous everywhere and is k at lbnd;
   xs are the points where f may be discontinuous.  Last line: F measures the
   Riemann integral (standard library) of f over any interval. *)
Definition is_integral_of (xs : list R) (f F : R -> R) (lbnd k : R) : Prop :=
  (forall x, continuity_pt F x) /\
  (forall x, ~ is_knot xs x -> derivable_pt_lim F x (f x)) /\
  F lbnd = k /\
  (forall a b, exists pr : Riemann_integrable f a b, RiemannInt pr = F b - F a).

Lemma antideriv_integral F p comp lbnd k : pw_wf p -> pcl p = Pw -> pcl F = Pw ->
  antideriv F p comp lbnd k -> is_integral_of (pxk p) (pw_val p comp) (pw_val F comp) lbnd k.
Proof.
  intros W EP EF A.
  assert (Ep : forall x, base p comp x = pw_val p comp x) by (intros; rewrite pw_val_base, pw_reduce_Pw; auto).
  assert (Ef : forall x, base F comp x = pw_val F comp x) by (intros; rewrite pw_val_base, pw_reduce_Pw; auto).
  split; [|split; [|split]].
  - intros x. apply (continuity_pt_ext' _ _ _ Ef), A.
  - intros x N. rewrite <- Ep. apply (dpl_ext _ _ _ _ Ef), A, N.
  - rewrite <- Ef. apply A.
  - intros a b. rewrite <- !Ef. destruct (Rle_dec a b) as [L|L].
    + apply (integral_ext (base p comp)); [exact L|intros; apply Ep|].
      apply (integral_of_antideriv F p comp lbnd k W A).
    + destruct (integral_ext (base p comp) (pw_val p comp) b a (base F comp a - base F comp b)) as (pr & Hpr);
        [lra|intros; apply Ep|apply (integral_of_antideriv F p comp lbnd k W A)|].
      exists (RiemannInt_P1 pr). rewrite (RiemannInt_P8 (RiemannInt_P1 pr) pr), Hpr. ring.
Qed.

(* p.integ(1, k, lbnd), k an array of p's component shape *)
Theorem C34_integ : forall (p : pwpoly R) (k : nd R) (lbnd : R),
  pw_wf p -> pcl p = Pw -> shp k = pshape p ->
  exists F, integ p 1 k lbnd = Ok F /\ pw_wf F /\ pcl F = Pw /\ pxk F = pxk p /\
    pshape F = pshape p /\ pdeg F = S (pdeg p) /\
    (forall comp, inb comp (pshape p) ->
       is_integral_of (pxk p) (pw_val p comp) (pw_val F comp) lbnd (get k comp)) /\
    exists d, deriv F 1 = Ok d /\ forall comp i, inb comp (pshape p) -> (i < ck (pc p))%nat ->
      ccol (pc d) comp i = ccol (pc p) comp i.
Proof.
  intros p k lbnd W EP Hk.
  destruct (integ_consts_one (csh (pc p)) k Hk) as (ks & K1 & K2 & K3 & K4).
  destruct (integ_ok p 1 k lbnd ks W K1 K3) as (F & Fs & F1 & F2 & F3 & F4 & F5 & F6 & F7 & F8 & F9 & F10 & F11).
  rewrite K2 in *. exists F. split; [exact F1|]. split; [exact F2|]. split; [congruence|].
  split; [unfold pxk; congruence|]. split; [exact F5|].
  split; [unfold pdeg; rewrite F6; pose proof (cwf_n _ (wf_c p W)); lia|].
  assert (E0 : Fs 0%nat = p) by (rewrite F8; destruct p; reflexivity).
  destruct (F9 1%nat ltac:(lia)) as (G1 & G2 & G3 & G4 & G5).
  split.
  - intros comp Hb. apply antideriv_integral; auto; [congruence|].
    pose proof (F11 0%nat comp ltac:(lia) Hb) as A. rewrite E0, (K4 comp Hb) in A.
    destruct A as [A1 A2 A3 A4]. split.
    + intros x. apply (continuity_pt_ext' (base (Fs 1%nat) comp)); auto. intros y; symmetry; apply F7; auto.
    + intros x N. apply (dpl_ext (base (Fs 1%nat) comp)); auto. intros y; symmetry; apply F7; auto.
    + rewrite F7; auto.
    + intros i Hi. rewrite F10; auto.
  - destruct (deriv_ok F 1 F2) as (d & D1 & D2 & D3 & D4 & D5 & D6 & D7). exists d. split; auto.
    assert (CK : ck (pc F) = ck (pc p)).
    { rewrite <- (wf_len F F2), <- (wf_len p W), F4. reflexivity. }
    intros comp i Hb Hi. rewrite D7 by (try rewrite F5; try rewrite CK; auto). cbn [dcolm].
    rewrite (cwf_col _ (wf_c F F2)) by (try rewrite F5; try rewrite CK; auto). rewrite F6.
    pose proof (cwf_n _ (wf_c p W)).
    destruct (Nat.ltb_spec (cn (pc p) + 1) 2); [lia|].
    rewrite F10 by auto. pose proof (ad_cols _ _ _ _ _ (F11 0%nat comp ltac:(lia) Hb) i) as A.
    rewrite E0 in A. auto.
Qed.
Example C34_case : exists F, integ ex_p 1 (scalar 5) 1 = Ok F /\ pw_call F [] 1 = Ok 5 /\ pw_call F [] 2 = Ok 8.
Proof.
  destruct (C34_integ ex_p (scalar 5) 1 ex_p_wf eq_refl eq_refl) as (F & E & WF & EF & EX & _ & _ & H & _).
  exists F. split; [exact E|]. destruct (H [] (Forall2_nil _)) as (Hc & Hd & Hk & Hi).
  rewrite !pw_call_wf by auto. split; [f_equal; exact Hk|f_equal].
  destruct (Hi 1 2) as (pr & Hpr). cbn in Hk. rewrite Hk in Hpr.
  assert (HV : RiemannInt pr = 3 * (2 - 1)).
  { assert (P3 : Riemann_integrable (fct_cte 3) 1 2) by apply RiemannInt_P14.
    rewrite <- (RiemannInt_P15 P3). apply RiemannInt_P18; [lra|].
    intros x Hx. unfold fct_cte. rewrite pw_val_base, pw_reduce_Pw by reflexivity.
    rewrite (base_piece ex_p [] 2 x); [unfold peval; cbn; ring|apply ex_p_wf|].
    split; [cbn; lia|]. split; intros j Hj; cbn in Hj; [|cbn in Hj; lia].
    destruct j as [|[|j]]; cbn; lra || lia. }
  lra.
Qed.
Print Assumptions C34_integ.

(* p.integ(m, k, lbnd), k an array of d <= m constants of p's component shape:
   m successive integrations, using k[0], k[1], ... and then zeros *)
Theorem C34_integ_iterated : forall (p : pwpoly R) (m d : nat) (k : nd R) (lbnd : R),
  pw_wf p -> pcl p = Pw -> shp k = d :: pshape p -> (d <= m)%nat ->
  exists F, integ p m k lbnd = Ok F /\ pw_wf F /\ pcl F = Pw /\ pxk F = pxk p /\
    pshape F = pshape p /\ pdeg F = (pdeg p + m)%nat /\
    forall comp, inb comp (pshape p) -> exists fs : nat -> R -> R,
      (forall x, fs O x = pw_val p comp x) /\ (forall x, fs m x = pw_val F comp x) /\
      forall t, (t < m)%nat ->
        is_integral_of (pxk p) (fs t) (fs (S t)) lbnd (if (t <? d)%nat then get k (t :: comp) else 0).
Proof.
  intros p m d k lbnd W EP Hk Hd.
  destruct (integ_consts_list (csh (pc p)) m d k Hk Hd) as (ks & K1 & K2 & K3 & K4).
  destruct (integ_ok p m k lbnd ks W K1 K3) as (F & Fs & F1 & F2 & F3 & F4 & F5 & F6 & F7 & F8 & F9 & F10 & F11).
  rewrite K2 in *. exists F. split; [exact F1|]. split; [exact F2|]. split; [congruence|].
  split; [unfold pxk; congruence|]. split; [exact F5|].
  split; [unfold pdeg; rewrite F6; pose proof (cwf_n _ (wf_c p W)); lia|].
  assert (E0 : Fs 0%nat = p) by (rewrite F8; destruct p; reflexivity).
  intros comp Hb. exists (fun t => pw_val (Fs t) comp). split; [intros; rewrite E0; reflexivity|]. split.
  - intros x. destruct (F9 m ltac:(lia)) as (_ & G2 & _).
    rewrite !pw_val_base, !pw_reduce_Pw by congruence. symmetry. apply F7; auto.
  - intros t Ht. rewrite <- (K4 t comp Ht Hb).
    destruct (F9 t ltac:(lia)) as (G1 & G2 & G3 & G4 & G5). destruct (F9 (S t) ltac:(lia)) as (_ & G6 & _).
    replace (pxk p) with (pxk (Fs t)) by (unfold pxk; congruence).
    apply antideriv_integral; auto; congruence.
Qed.
(* ex_p integrated twice with the single constant 5 *)
Example C34_iterated_case : exists F, integ ex_p 2 (Nd [1%nat] (fun _ => 5)) 1 = Ok F /\ pw_call F [] 1 = Ok 0 /\ pdeg F = 3%nat.
Proof.
  destruct (C34_integ_iterated ex_p 2 1 (Nd [1%nat] (fun _ => 5)) 1 ex_p_wf eq_refl eq_refl ltac:(lia))
    as (F & E & WF & _ & _ & _ & D & H).
  exists F. split; [exact E|]. destruct (H [] (Forall2_nil _)) as (fs & _ & Hm & Ht).
  split; [|exact D]. rewrite pw_call_wf by auto. rewrite <- Hm. f_equal. apply (Ht 1%nat). lia.
Qed.
Print Assumptions C34_integ_iterated.

(* PerPwPoly: the same inside the base period.  (Across periods F jumps by
   minus the integral of p over a period.) *)
Theorem C34_integ_periodic : forall (p : pwpoly R) (k : nd R) (lbnd x0 xN : R),
  pw_wf p -> pcl p = Per -> shp k = pshape p ->
  x0 = nth 0 (pxk p) 0 -> xN = nth (length (pxk p) - 1) (pxk p) 0 ->
  exists F, integ p 1 k lbnd = Ok F /\ pw_wf F /\ pcl F = Per /\ pxk F = pxk p /\ pshape F = pshape p /\
    forall comp, inb comp (pshape p) ->
      (x0 <= lbnd < xN -> pw_val F comp lbnd = get k comp) /\
      (forall a b, x0 <= a <= b -> b < xN ->
         exists pr : Riemann_integrable (pw_val p comp) a b, RiemannInt pr = pw_val F comp b - pw_val F comp a) /\
      (forall x, x0 < x < xN -> continuity_pt (pw_val F comp) x) /\
      (forall x, x0 < x < xN -> ~ is_knot (pxk p) x -> derivable_pt_lim (pw_val F comp) x (pw_val p comp x)).
Proof.
  intros p k lbnd x0 xN W EP Hk Hx0 HxN.
  destruct (integ_consts_one (csh (pc p)) k Hk) as (ks & K1 & K2 & K3 & K4).
  destruct (integ_ok p 1 k lbnd ks W K1 K3) as (F & Fs & F1 & F2 & F3 & F4 & F5 & F6 & F7 & F8 & F9 & F10 & F11).
  rewrite K2 in *. exists F. split; [exact F1|]. split; [exact F2|]. split; [congruence|].
  split; [unfold pxk; congruence|]. split; [exact F5|].
  assert (E0 : Fs 0%nat = p) by (rewrite F8; destruct p; reflexivity).
  intros comp Hb. pose proof (F11 0%nat comp ltac:(lia) Hb) as A. rewrite E0, (K4 comp Hb) in A.
  assert (Vp : forall x, x0 <= x < xN -> base p comp x = pw_val p comp x).
  { intros x Hx. rewrite pw_val_base. f_equal. symmetry. apply (reduce_unique p x x 0); auto; [ring|].
    unfold per_len. rewrite <- Hx0, <- HxN. lra. }
  assert (VF : forall x, x0 <= x < xN -> base (Fs 1%nat) comp x = pw_val F comp x).
  { intros x Hx. rewrite pw_val_base, <- F7 by auto. f_equal. symmetry. apply (reduce_unique F x x 0); auto; [congruence|ring|].
    assert (HX : pxk F = pxk p) by (unfold pxk; congruence).
    unfold per_len. rewrite HX, <- Hx0, <- HxN. lra. }
  split; [|split; [|split]].
  - intros Hl. rewrite <- VF by lra. apply A.
  - intros a b Hab Hb2. rewrite <- !VF by lra. apply (integral_ext (base p comp)); [lra| |].
    + intros x Hx. apply Vp. lra.
    + apply (integral_of_antideriv _ _ _ _ _ W A).
  - intros x Hx. apply (cont_local _ (base (Fs 1%nat) comp) x (Rmin (x - x0) (xN - x))).
    + apply Rmin_glb_lt; lra.
    + intros t Ht. symmetry. apply VF. apply Rabs_def2 in Ht.
      pose proof (Rmin_l (x - x0) (xN - x)). pose proof (Rmin_r (x - x0) (xN - x)). lra.
    + apply A.
  - intros x Hx N. rewrite <- Vp by lra.
    apply (dpl_local _ (base (Fs 1%nat) comp) x _ (Rmin (x - x0) (xN - x))).
    + apply Rmin_glb_lt; lra.
    + intros t Ht. symmetry. apply VF. apply Rabs_def2 in Ht.
      pose proof (Rmin_l (x - x0) (xN - x)). pose proof (Rmin_r (x - x0) (xN - x)). lra.
    + apply A, N.
Qed.
Example C34_periodic_case : exists F, integ ex_per 1 (scalar 7) 1 = Ok F /\ pw_call F [] (1 + IZR 5 * 2) = Ok 7.
Proof.
  destruct (C34_integ_periodic ex_per (scalar 7) 1 0 2 ex_per_wf eq_refl eq_refl eq_refl eq_refl)
    as (F & E & WF & EP & EX & _ & H).
  exists F. split; [exact E|]. destruct (H [] (Forall2_nil _)) as (Hk & _).
  destruct (C49_periodic F WF EP) as (T & _ & HT & _ & _ & Hper & _). rewrite EX in HT. cbn in HT.
  replace 2 with T by lra. rewrite Hper, pw_call_wf by auto. f_equal. apply Hk. lra.
Qed.
Print Assumptions C34_integ_periodic.

(* the default k=(), an empty one dimensional array *)
Definition no_consts : nd R := Nd [0%nat] (fun _ => 0).

(* works for scalar p and any m *)
Theorem C35_integ_default_partial : forall (p : pwpoly R) (m : nat) (lbnd : R),
  pw_wf p -> pcl p = Pw -> pshape p = [] ->
  exists F, integ p m no_consts lbnd = Ok F /\ pw_wf F /\ pcl F = Pw /\ pxk F = pxk p /\
    exists fs : nat -> R -> R,
      (forall x, fs O x = pw_val p [] x) /\ (forall x, fs m x = pw_val F [] x) /\
      forall t, (t < m)%nat -> is_integral_of (pxk p) (fs t) (fs (S t)) lbnd 0.
Proof.
  intros p m lbnd W EP Hs.
  destruct (C34_integ_iterated p m 0 no_consts lbnd W EP) as (F & E & WF & EF & EX & _ & _ & H);
    [rewrite Hs; reflexivity|lia|].
  exists F. repeat (split; [assumption|]). apply (H []). rewrite Hs. constructor.
Qed.
Example C35_case : exists F, integ ex_p 1 no_consts 1 = Ok F /\ pw_call F [] 1 = Ok 0.
Proof.
  destruct (C35_integ_default_partial ex_p 1 1 ex_p_wf eq_refl eq_refl) as (F & E & WF & _ & _ & fs & _ & H1 & H2).
  exists F. split; [exact E|]. rewrite pw_call_wf by auto. rewrite <- H1. f_equal. apply (H2 0%nat). lia.
Qed.
Print Assumptions C35_integ_default_partial.

(* and for every p with one component index the default constants raise *)
Theorem C35_integ_default_refuted : forall (p : pwpoly R) (m n : nat) (lbnd : R),
  pw_wf p -> pshape p = [n] -> (2 <= n)%nat -> integ p m no_consts lbnd = Err ValueError.
Proof.
  intros p m n lbnd W Hs Hn. unfold integ. pose proof (cwf_n _ (wf_c p W)).
  destruct (Nat.eqb_spec (cn (pc p)) 0); [lia|]. unfold pshape in Hs. rewrite Hs.
  unfold integ_consts. cbn [ndim shp no_consts length Nat.eqb].
  set (k2 := if (1 <? m)%nat then _ else _).
  assert (S2 : exists e, shp k2 = [e; 0%nat]) by (unfold k2; destruct (1 <? m)%nat; eexists; reflexivity).
  destruct S2 as (e & S2). unfold nd_map2. cbn [full shp]. rewrite S2.
  unfold bshape. cbn [rev app brev]. unfold bdim at 1.
  destruct (Nat.eqb_spec n 0); [lia|]. destruct (Nat.eqb_spec n 1); [lia|].
  cbn [Nat.eqb]. reflexivity.
Qed.
(* two components, one knot *)
Definition ex_vec : pwpoly R := PwP Pw [0; 0] (CArr 1 [2%nat] 2 (fun _ _ => [1])) None.
Example ex_vec_wf : pw_wf ex_vec.
Proof.
  split; cbn; try lia; try reflexivity.
  - split; cbn; [lia|]. reflexivity.
  - intros [|i] Hi; cbn in *; lia.
  - discriminate.
Qed.
Example C35_refuted_case : integ ex_vec 1 no_consts 0 = Err ValueError.
Proof. apply (C35_integ_default_refuted ex_vec 1 2 0 ex_vec_wf eq_refl). lia. Qed.
Print Assumptions C35_integ_default_refuted.
