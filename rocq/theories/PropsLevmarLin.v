(* C111: levmar on models that are linear in the parameters
   (npplus/lsqfit.py:277-390). *)
From Coq Require Import List Arith ZArith Bool Lia Reals Lra Classical.
From Verif Require Import Num PyBase NdArray NdLemmas PwPoly RSum SolvePer SolveProofs Gauss LsqModel Levmar LevmarProofs LevmarDescent LevmarTerm PropsRegress PropsLevmar PropsLevmar2 PropsLevmar3.
Import ListNotations.
Local Open Scope R_scope.

(* ---- one damped step of a linear least squares problem ---- *)
Section Step.
  Variables (n N : nat) (w : nat -> R) (d a : nat -> nat -> R).
  Hypothesis Hw : forall k, (k < N)%nat -> 0 < w k.
  Hypothesis Ha : forall i j, (i < n)%nat -> (j < n)%nat -> a i j = rsum N (fun k => w k * d i k * d j k).
  (* change of the model for a change s of the parameters, and its weight *)
  Definition lin_u (s : nat -> R) (k : nat) : R := rsum n (fun i => s i * d i k).
  Definition lin_q (s : nat -> R) : R := rsum N (fun k => w k * lin_u s k ^ 2).
  Definition lin_d (s : nat -> R) : R := rsum n (fun i => a i i * s i ^ 2).
  Definition lin_x (e : nat -> R) : R := rsum N (fun k => w k * e k ^ 2).

  Lemma diag_nonneg i : (i < n)%nat -> 0 <= a i i.
  Proof using Ha Hw.
    intros Hi. rewrite Ha by auto. apply rsum_nonneg. intros k Hk. pose proof (Hw k Hk). pose proof (Rle_0_sqr (d i k)) as Q. unfold Rsqr in Q.
    rewrite Rmult_assoc. apply Rmult_le_pos; lra.
  Qed.
  Lemma lin_q_nonneg s : 0 <= lin_q s.
  Proof using Hw. apply rsum_nonneg. intros k Hk. apply Rmult_le_pos; [left; apply Hw, Hk|apply pow2_ge_0]. Qed.
  Lemma lin_d_nonneg s : 0 <= lin_d s.
  Proof using Ha Hw. apply rsum_nonneg. intros i Hi. apply Rmult_le_pos; [apply diag_nonneg, Hi|apply pow2_ge_0]. Qed.
  Lemma gram_apply s i : (i < n)%nat -> rsum N (fun k => w k * d i k * lin_u s k) = rsum n (fun j => a i j * s j).
  Proof using Ha.
    intros Hi. unfold lin_u. rewrite (rsum_ext N _ (fun k => rsum n (fun j => w k * d i k * (s j * d j k)))) by (intros; rewrite rsum_scal; reflexivity).
    rewrite rsum_swap. apply rsum_ext. intros j Hj. rewrite Ha by auto. rewrite <- rsum_scal_r. apply rsum_ext. intros. ring.
  Qed.

  Variables (lam : R) (e delta : nat -> R).
  Hypothesis Hstep : forall i, (i < n)%nat ->
    rsum n (fun j => a i j * (if (i =? j)%nat then 1 + lam else 1) * delta j) = rsum N (fun k => w k * d i k * e k).
  Definition lin_e' (k : nat) : R := e k - lin_u delta k.

  Lemma grad_after i : (i < n)%nat -> rsum N (fun k => w k * d i k * lin_e' k) = lam * a i i * delta i.
  Proof using Ha Hstep.
    intros Hi. unfold lin_e'.
    rewrite (rsum_ext N _ (fun k => w k * d i k * e k - w k * d i k * lin_u delta k)) by (intros; ring).
    rewrite rsum_minus, gram_apply, <- (Hstep i Hi), <- rsum_minus by exact Hi.
    rewrite (rsum_ext n _ (fun j => (if (i =? j)%nat then 1 else 0) * (lam * a i j * delta j))).
    - apply (rsum_pick n i (fun j => lam * a i j * delta j) Hi).
    - intros j Hj. destruct (i =? j)%nat; ring.
  Qed.
  Lemma inner_after s : rsum N (fun k => w k * lin_e' k * lin_u s k) = lam * rsum n (fun i => a i i * delta i * s i).
  Proof using Ha Hstep.
    rewrite <- rsum_scal. unfold lin_u at 1.
    rewrite (rsum_ext N _ (fun k => rsum n (fun i => w k * lin_e' k * (s i * d i k)))) by (intros; rewrite rsum_scal; reflexivity).
    rewrite rsum_swap. apply rsum_ext. intros i Hi.
    rewrite (rsum_ext N _ (fun k => s i * (w k * d i k * lin_e' k))) by (intros; ring). rewrite rsum_scal, grad_after by exact Hi. ring.
  Qed.
  Lemma cost_moved s : lin_x (fun k => lin_e' k + lin_u s k) = lin_x lin_e' + 2 * lam * rsum n (fun i => a i i * delta i * s i) + lin_q s.
  Proof using Ha Hstep.
    unfold lin_x, lin_q. rewrite Rmult_assoc, <- inner_after, <- rsum_scal, <- !rsum_plus. apply rsum_ext. intros. ring.
  Qed.
  Lemma cost_before : lin_x e = lin_x lin_e' + 2 * lam * lin_d delta + lin_q delta.
  Proof using Ha Hstep.
    transitivity (lin_x (fun k => lin_e' k + lin_u delta k)).
    - apply rsum_ext. intros k Hk. unfold lin_e'. ring.
    - rewrite cost_moved. f_equal. f_equal. f_equal. apply rsum_ext. intros. ring.
  Qed.
  Lemma step_descent : 0 <= lam -> lin_x lin_e' <= lin_x e.
  Proof using Ha Hstep Hw.
    intros Hl. rewrite cost_before. pose proof (lin_q_nonneg delta). pose proof (Rmult_le_pos _ _ Hl (lin_d_nonneg delta)). lra.
  Qed.
  (* distance from the cost of any other parameters *)
  Lemma step_rate kap s : 0 <= lam -> 0 < kap -> (forall s, lin_d s <= kap * lin_q s) ->
    (1 + 2 * (lam * kap)) * (lin_x lin_e' - lin_x (fun k => lin_e' k + lin_u s k)) <= (lam * kap) ^ 2 * (lin_x e - lin_x lin_e').
  Proof using Ha Hstep Hw.
    intros Hl Hk HD. rewrite cost_moved, cost_before. set (B := rsum n (fun i => a i i * delta i * s i)).
    assert (Sq : 0 <= (lam * kap) ^ 2 * lin_d delta + 2 * (lam * kap) * B + lin_d s).
    { replace (_ + _ + _) with (lin_d (fun i => lam * kap * delta i + s i)); [apply lin_d_nonneg|].
      unfold lin_d, B. rewrite <- !rsum_scal, <- !rsum_plus. apply rsum_ext. intros. ring. }
    pose proof (HD s) as H1. pose proof (HD delta) as H2.
    pose proof (lin_d_nonneg delta) as P1. set (Dd := lin_d delta) in *. set (Ds := lin_d s) in *. set (Qs := lin_q s) in *. set (Qd := lin_q delta) in *.
    set (mu := lam * kap) in *. assert (M0 : 0 <= mu) by (apply Rmult_le_pos; lra).
    apply (Rmult_le_reg_l kap _ _ Hk).
    apply Rle_trans with ((1 + 2 * mu) * (mu ^ 2 * Dd)).
    - replace (kap * ((1 + 2 * mu) * (lin_x lin_e' - (lin_x lin_e' + 2 * lam * B + Qs)))) with ((1 + 2 * mu) * (- (2 * mu * B) - kap * Qs)) by (unfold mu; ring).
      apply Rmult_le_compat_l; lra.
    - replace (kap * (mu ^ 2 * (lin_x lin_e' + 2 * lam * Dd + Qd - lin_x lin_e'))) with (mu ^ 2 * (2 * mu * Dd + kap * Qd)) by (unfold mu; ring).
      replace ((1 + 2 * mu) * (mu ^ 2 * Dd)) with (mu ^ 2 * (2 * mu * Dd + Dd)) by ring.
      apply Rmult_le_compat_l; [apply pow2_ge_0|lra].
  Qed.
End Step.

(* the diagonal of the normal matrix bounded through the covariances *)
Lemma cov_bound n N (w : nat -> R) (d a c : nat -> nat -> R) s :
  (forall k, (k < N)%nat -> 0 < w k) ->
  (forall i j, (i < n)%nat -> (j < n)%nat -> a i j = rsum N (fun k => w k * d i k * d j k)) ->
  (forall i j, (i < n)%nat -> (j < n)%nat -> rsum n (fun k => c i k * a k j) = if (i =? j)%nat then 1 else 0) ->
  lin_d n a s <= rsum n (fun i => a i i * c i i) * lin_q n N w d s.
Proof.
  intros Hw Ha Hc. destruct (inv_gram n N w d a c Hw Ha Hc) as [Sc Pc].
  unfold lin_d. rewrite <- rsum_scal_r. apply rsum_le. intros i Hi. rewrite Rmult_assoc.
  apply Rmult_le_compat_l; [apply (diag_nonneg n N w d a Hw Ha i Hi)|].
  set (g := lin_u n d (c i)).
  assert (Sa : forall i j, (i < n)%nat -> (j < n)%nat -> a i j = a j i).
  { intros i' j Hi' Hj. rewrite !Ha by auto. apply rsum_ext. intros. ring. }
  assert (G : rsum N (fun k => w k * g k ^ 2) = c i i).
  { unfold g, lin_u. rewrite <- (gram_quad n N w d a (c i) Ha).
    rewrite (rsum_ext n _ (fun l => (if (i =? l)%nat then 1 else 0) * c i l)); [apply (rsum_pick n i (c i) Hi)|].
    intros l Hl. rewrite <- (Hc i l Hi Hl), Rmult_comm. f_equal. apply rsum_ext. intros j Hj. rewrite (Sa l j) by auto. ring. }
  assert (P : rsum N (fun k => w k * g k * lin_u n d s k) = s i).
  { unfold g. unfold lin_u at 1. rewrite (rsum_ext N _ (fun k => rsum n (fun l => c i l * (w k * d l k * lin_u n d s k)))).
    - rewrite rsum_swap. rewrite (rsum_ext n _ (fun l => c i l * rsum n (fun j => a l j * s j))).
      + rewrite mat_assoc. rewrite (rsum_ext n _ (fun k => (if (i =? k)%nat then 1 else 0) * s k)) by (intros k Hk; rewrite Hc by auto; reflexivity).
        apply (rsum_pick n i s Hi).
      + intros l Hl. rewrite rsum_scal, (gram_apply n N w d a Ha s l Hl). reflexivity.
    - intros k Hk. transitivity (rsum n (fun l => w k * lin_u n d s k * (c i l * d l k))); [rewrite rsum_scal; ring|apply rsum_ext; intros; ring]. }
  assert (CS : 0 <= c i i * (c i i * lin_q n N w d s - s i ^ 2)).
  { replace (c i i * (c i i * lin_q n N w d s - s i ^ 2)) with (rsum N (fun k => w k * (c i i * lin_u n d s k - s i * g k) ^ 2)).
    - apply rsum_nonneg. intros k Hk. apply Rmult_le_pos; [left; apply Hw, Hk|apply pow2_ge_0].
    - rewrite (rsum_ext N _ (fun k => c i i ^ 2 * (w k * lin_u n d s k ^ 2) - 2 * c i i * s i * (w k * g k * lin_u n d s k) + s i ^ 2 * (w k * g k ^ 2))) by (intros; ring).
      rewrite rsum_plus, rsum_minus, !rsum_scal, G, P. unfold lin_q. ring. }
  destruct (Rle_dec (s i ^ 2) (c i i * lin_q n N w d s)) as [|Q]; [assumption|exfalso]. specialize (Pc i Hi).
  assert (0 < c i i * (s i ^ 2 - c i i * lin_q n N w d s)) by (apply Rmult_lt_0_compat; lra). lra.
Qed.

(* product of the first n values of f *)
Fixpoint rprod (n : nat) (f : nat -> R) : R := match n with O => 1 | S k => rprod k f * f k end.
Lemma rprod_ext n f g : (forall i, (i < n)%nat -> f i = g i) -> rprod n f = rprod n g.
Proof. induction n as [|n IH]; intros H; cbn; [reflexivity|]. rewrite IH, H; auto. Qed.
Lemma rprod_S_l n f : rprod (S n) f = f 0%nat * rprod n (fun i => f (S i)).
Proof. induction n as [|n IH]; [cbn; ring|]. cbn [rprod] in *. rewrite IH. ring. Qed.
Lemma rprod_nonneg n f : (forall i, (i < n)%nat -> 0 <= f i) -> 0 <= rprod n f.
Proof. induction n as [|n IH]; intros H; cbn; [lra|]. apply Rmult_le_pos; auto. Qed.

(* ---- the loops, in terms of the free parameters ---- *)
Section Loop.
  Variables (f : @lfun R) (solve : arr2 R -> list R -> res (list R)) (data wgt : nd R) (p0 : list R) (mask : list bool)
    (prel pabs : list R) (cfg : @lmcfg R) (N : nat).
  Local Notation nf := (nfree mask).
  Variables (c : nat -> R) (A : nat -> nat -> R).
  (* the model and chi2 *)
  Definition lval (fp : list R) (t : nat) : R := c t + rsum nf (fun i => nth i fp 0 * A i t).
  Definition lX (fp : list R) : R := rsum N (fun t => get wgt [t] * (get data [t] - lval fp t) ^ 2).
  Hypothesis (Sd : shp data = [N]) (Sw : shp wgt = [N]) (Hw : forall t, (t < N)%nat -> 0 < get wgt [t]).
  Definition good_v (fp : list R) (v : nd R) : Prop := shp v = [N] /\ forall t, (t < N)%nat -> get v [t] = lval fp t.
  Hypothesis GB : forall fp tr, length fp = nf -> exists v d tr', g_both f p0 mask None None prel pabs fp tr = (Ok (v, d), tr') /\
    good_v fp v /\ shp d = [nf; N] /\ forall i t, (i < nf)%nat -> (t < N)%nat -> get d [i; t] = A i t.
  Hypothesis GN : forall fp tr, length fp = nf -> exists v tr', g_next f p0 mask fp tr = (Ok v, tr') /\ good_v fp v.
  Hypothesis Hind : forall v : nat -> R, (forall t, (t < N)%nat -> rsum nf (fun i => v i * A i t) = 0) -> forall i, (i < nf)%nat -> v i = 0.
  Hypothesis Hso : solve_ok solve.
  Definition lgram (i j : nat) : R := rsum N (fun t => get wgt [t] * A i t * A j t).
  Definition is_alpha (al : arr2 R) : Prop :=
    nr al = nf /\ SolvePer.nc al = nf /\ forall i j, (i < nf)%nat -> (j < nf)%nat -> at2 al i j = lgram i j.
  Definition kap_ok (kap : R) : Prop := 0 < kap /\ forall s, lin_d nf lgram s <= kap * lin_q nf N (fun t => get wgt [t]) A s.

  Lemma lX_nonneg fp : 0 <= lX fp.
  Proof using Hw. apply rsum_nonneg. intros t Ht. apply Rmult_le_pos; [left; apply Hw, Ht|apply pow2_ge_0]. Qed.
  Lemma chisq_lin fp v : good_v fp v -> chisq data wgt v = Ok (lX fp).
  Proof using Sd Sw.
    intros [Sv Gv]. unfold chisq.
    destruct (map2_N nsub data v N Sd (bto_self _ _ Sv)) as (dm & -> & S1 & G1). cbn [bind].
    destruct (map2_N nmul wgt dm N Sw (bto_self _ _ S1)) as (b & -> & S2 & G2). cbn [bind].
    destruct (map2_N nmul b dm N S2 (bto_self _ _ S1)) as (q & -> & S3 & G3). cbn [bind].
    f_equal. unfold asum, lX. rewrite ksum_rsum, S3, size1. apply rsum_ext. intros t Ht.
    rewrite unravel1, G3, G2 by exact Ht. rewrite (bget_self dm) by (rewrite S1; apply inb1, Ht). rewrite G1 by exact Ht.
    rewrite (bget_self v) by (rewrite Sv; apply inb1, Ht). rewrite Gv by exact Ht. numR. ring.
  Qed.
  Lemma alpha_nonsing al lam : is_alpha al -> 0 <= lam -> nonsing nf (at2 (damped al lam)).
  Proof using Hw Hind.
    intros (_ & _ & Ga) Hl v Hv. apply (damped_nonsing nf N (fun k => get wgt [k]) A (at2 al) lam); auto.
  Qed.

  (* one trial step: always accepted *)
  Lemma lin_inner fi fp al bl lam neval tr : length fp = nf -> is_alpha al -> length bl = nf ->
    (forall i, (i < nf)%nat -> nth i bl 0 = rsum N (fun t => A i t * (get wgt [t] * (get data [t] - lval fp t)))) ->
    0 <= lam -> lX fp <> 0 ->
    exists fp' tr', lm_inner f solve data wgt p0 mask None None cfg (S fi) fp (lX fp) al bl lam neval tr = (Ok (Some (fp', lX fp', lam, S neval)), tr') /\
      length fp' = nf /\ lX fp' <= lX fp /\
      forall kap s, kap_ok kap -> length s = nf -> (1 + 2 * (lam * kap)) * (lX fp' - lX s) <= (lam * kap) ^ 2 * (lX fp - lX fp').
  Proof using Sd Sw Hw GN Hind Hso.
    intros Lfp Hal Lbl Gbl Hl HX. pose proof (alpha_nonsing al lam Hal Hl) as NS. destruct Hal as (A1 & A2 & Ga).
    destruct (Hso nf (damped al lam) bl A1 A2 Lbl) as [HS _]. destruct (HS NS) as (x & Ex & Lx & Gx).
    set (fp' := zipw nadd fp x).
    assert (Lf' : length fp' = nf) by (unfold fp'; rewrite zipw_length; lia).
    assert (Nf' : forall i, (i < nf)%nat -> nth i fp' 0 = nth i fp 0 + nth i x 0).
    { intros i Hi. unfold fp'. rewrite (nth_zipw2 nadd _ _ _ 0 0) by lia. numR. reflexivity. }
    destruct (GN fp' tr Lf') as (v & tr' & EN & Gv).
    set (e := fun t => get data [t] - lval fp t). set (dl := fun i => nth i x 0).
    assert (ST : forall i, (i < nf)%nat -> rsum nf (fun j => lgram i j * (if (i =? j)%nat then 1 + lam else 1) * dl j) = rsum N (fun k => get wgt [k] * A i k * e k)).
    { intros i Hi. transitivity (nth i bl 0).
      - rewrite <- (Gx i Hi). apply rsum_ext. intros j Hj. cbn [damped at2]. rewrite (Ga i j Hi Hj). numR. destruct (i =? j)%nat; reflexivity.
      - rewrite Gbl by exact Hi. apply rsum_ext. intros. unfold e. ring. }
    set (w := fun t => get wgt [t]) in *.
    assert (GR : forall i j, (i < nf)%nat -> (j < nf)%nat -> lgram i j = rsum N (fun k => w k * A i k * A j k)) by reflexivity.
    assert (Xe : lX fp = lin_x N w e) by reflexivity.
    assert (Xe' : lX fp' = lin_x N w (lin_e' nf A e dl)).
    { apply rsum_ext. intros t Ht. unfold lin_e', e, lin_u, lval. fold (w t). f_equal. f_equal.
      rewrite (rsum_ext nf (fun i => nth i fp' 0 * A i t) (fun i => nth i fp 0 * A i t + dl i * A i t)) by (intros i Hi; rewrite Nf' by exact Hi; unfold dl; ring).
      rewrite rsum_plus. ring. }
    assert (Le : lX fp' <= lX fp).
    { rewrite Xe, Xe'. apply (step_descent nf N w A lgram Hw GR lam e dl ST Hl). }
    exists fp', tr'. split.
    { cbn [lm_inner]. unfold sbind at 1. unfold slift at 1. rewrite Ex. cbn [clip]. fold fp'.
      unfold sbind at 1. change (clip None None fp') with fp'. rewrite EN. unfold sbind at 1. unfold slift at 1. rewrite (chisq_lin fp' v Gv).
      replace (nltb _ _) with true; [reflexivity|]. symmetry. unfold c1000001. numR. apply Rltb_true.
      pose proof (lX_nonneg fp). assert (0 < lX fp) by lra. lra. }
    split; [exact Lf'|]. split; [exact Le|]. intros kap s [Hk HD] Ls.
    assert (Xs : lX s = lin_x N w (fun k => lin_e' nf A e dl k + lin_u nf A (fun i => nth i fp' 0 - nth i s 0) k)).
    { apply rsum_ext. intros t Ht. unfold lin_e', e, lin_u, lval. fold (w t). f_equal. f_equal.
      rewrite (rsum_ext nf (fun i => (nth i fp' 0 - nth i s 0) * A i t) (fun i => nth i fp 0 * A i t + dl i * A i t - nth i s 0 * A i t))
        by (intros i Hi; rewrite Nf' by exact Hi; unfold dl; ring).
      rewrite rsum_minus, rsum_plus. ring. }
    rewrite Xs, Xe, Xe'. apply (step_rate nf N w A lgram Hw GR lam e dl ST kap _ Hl Hk HD).
  Qed.

  (* chi2 is the cost of the current parameters, chi20 that of the first ones *)
  Definition chi_ok (chi : option (R * R)) (fp : list R) (chi20 : R) : Prop :=
    match chi with None => chi20 = lX fp | Some (a, b) => a = lX fp /\ chi20 = b end.
  Lemma lin_pass fuel fi fp chi chi20 lam niter neval tr : length fp = nf -> chi_ok chi fp chi20 -> 0 <= lam ->
    exists al, is_alpha al /\
    ((lX fp = 0 /\ exists tr', lm_outer f solve data wgt p0 mask None None prel pabs cfg (S fuel) (S fi) fp chi lam niter neval tr =
       (Ok (Some (LmOut fp 0 chi20 al niter (S neval) lam)), tr')) \/
     (lX fp <> 0 /\ exists fp' tr', length fp' = nf /\ lX fp' <= lX fp /\
       (forall kap s, kap_ok kap -> length s = nf -> (1 + 2 * (lam * kap)) * (lX fp' - lX s) <= (lam * kap) ^ 2 * (lX fp - lX fp')) /\
       let conv := (lX fp - lX fp') / (lX fp + lX fp') in
       lm_outer f solve data wgt p0 mask None None prel pabs cfg (S fuel) (S fi) fp chi lam niter neval tr =
       (if Rleb (conv + conv) (c_tol cfg) then (Ok (Some (LmOut fp' (lX fp') chi20 al niter (S (S neval)) lam)), tr')
        else if (c_itmax cfg <=? niter + 1)%Z then (Ok (Some (LmOut fp' (lX fp') chi20 al (niter + 1)%Z (S (S neval)) (lam / c_gain cfg))), tr')
        else lm_outer f solve data wgt p0 mask None None prel pabs cfg fuel (S fi) fp' (Some (lX fp', chi20)) (lam / c_gain cfg) (niter + 1)%Z (S (S neval)) tr'))).
  Proof using Sd Sw Hw GB GN Hind Hso.
    intros Lfp Hchi Hl. destruct (GB fp tr Lfp) as (v & d & tr1 & EB & Gv & Sdd & Gd).
    pose proof (chisq_lin fp v Gv) as CV. destruct Gv as [Sv Gv].
    destruct (map2_N nsub data v N Sd (bto_self _ _ Sv)) as (dm & Edm & S1 & G1).
    destruct (map2_N nmul wgt dm N Sw (bto_self _ _ S1)) as (wd & Ewd & S2 & G2).
    destruct (map2_N nmul wd dm N S2 (bto_self _ _ S1)) as (cq & Ecq & S3 & G3).
    assert (EX : asum cq = lX fp).
    { unfold chisq in CV. rewrite Edm in CV. cbn [bind] in CV. rewrite Ewd in CV. cbn [bind] in CV. rewrite Ecq in CV. cbn [bind] in CV. injection CV as CV. exact CV. }
    assert (E : exists be, dot_nn d wd = Ok be /\ shp be = [nf] /\ forall i, (i < nf)%nat -> get be [i] = rsum N (fun t => A i t * (get wgt [t] * (get data [t] - lval fp t)))).
    { unfold dot_nn. unfold ndim. rewrite Sdd, S2. cbn [length last Nat.sub nth removelast]. rewrite Nat.eqb_refl.
      cbn [Nat.leb andb]. eexists. split; [reflexivity|]. split; [reflexivity|]. intros i Hi. cbn [get firstn skipn app insert_at].
      rewrite ksum_rsum. apply rsum_ext. intros t Ht. rewrite Gd by auto. rewrite G2 by exact Ht. rewrite (bget_self dm) by (rewrite S1; apply inb1, Ht).
      rewrite G1 by exact Ht. rewrite (bget_self v) by (rewrite Sv; apply inb1, Ht). rewrite Gv by exact Ht. numR. reflexivity. }
    destruct E as (be & Ebe & Sbe & Gbe).
    assert (E : exists wdd, nd_map2 nmul wgt d = Ok wdd /\ shp wdd = [nf; N] /\
       forall i k, (i < nf)%nat -> (k < N)%nat -> get wdd [i; k] = get wgt [k] * get d [i; k]).
    { unfold nd_map2. rewrite Sw, Sdd, bshape_comm, (bshape_of_bto [N] [nf; N]).
      - eexists. split; [reflexivity|]. split; [reflexivity|]. intros i k Hi Hk. cbn [get].
        rewrite (bget_self d) by (rewrite Sdd; repeat constructor; auto). numR. f_equal.
        unfold bget. rewrite Sw. unfold bidx. cbn. destruct (Nat.eqb_spec N 1); [replace k with 0%nat by lia|]; reflexivity.
      - unfold bto. cbn. rewrite Nat.eqb_refl. reflexivity. }
    destruct E as (wdd & Ewdd & Swdd & Gwdd).
    assert (E : exists alpha, inner_nn wdd d = Ok alpha /\ shp alpha = [nf; nf] /\
       forall i j, (i < nf)%nat -> (j < nf)%nat -> get alpha [i; j] = lgram i j).
    { unfold inner_nn, ndim. rewrite Sdd, Swdd. cbn [length last removelast]. rewrite Nat.eqb_refl.
      cbn [Nat.leb andb]. eexists. split; [reflexivity|]. split; [reflexivity|]. intros i j Hi Hj. cbn [Nat.sub get firstn skipn app].
      rewrite ksum_rsum. apply rsum_ext. intros k Hk. rewrite Gwdd, !Gd by auto. reflexivity. }
    destruct E as (alpha & Eal & Sal & Gal).
    assert (E : exists al, to_arr2 alpha = Ok al /\ is_alpha al).
    { unfold to_arr2. rewrite Sal. eexists. split; [reflexivity|]. split; [reflexivity|]. split; [reflexivity|]. intros i j Hi Hj. apply (Gal i j Hi Hj). }
    destruct E as (al & Ea & Hal).
    assert (E : exists bl, to_list1 be = Ok bl /\ length bl = nf /\ forall i, (i < nf)%nat -> nth i bl 0 = rsum N (fun t => A i t * (get wgt [t] * (get data [t] - lval fp t)))).
    { unfold to_list1. rewrite Sbe. eexists. split; [reflexivity|]. rewrite map_length, seq_length. split; [reflexivity|].
      intros i Hi. rewrite (nth_indep _ 0 (get be [0%nat])) by (rewrite map_length, seq_length; exact Hi).
      rewrite (map_nth (fun i => get be [i])), seq_nth by exact Hi. apply Gbe, Hi. }
    destruct E as (bl & Ebl & Lbl & Gbl).
    exists al. split; [exact Hal|].
    assert (RUN : lm_outer f solve data wgt p0 mask None None prel pabs cfg (S fuel) (S fi) fp chi lam niter neval tr =
      (if (lX fp =? n0)%K then sret (Some (LmOut fp (lX fp) chi20 al niter (S neval) lam)) else
        sbind (slift (Ok bl)) (fun be => sbind (lm_inner f solve data wgt p0 mask None None cfg (S fi) fp (lX fp) al be lam (S neval))
        (fun r => match r with
        | None => sret None
        | Some (p', chi2', lam', neval') =>
          let conv := (lX fp - chi2') / (lX fp + chi2') in
          if (conv + conv <=? c_tol cfg)%K then sret (Some (LmOut p' chi2' chi20 al niter neval' lam'))
          else
            if (c_itmax cfg <=? niter + 1)%Z then sret (Some (LmOut p' chi2' chi20 al (niter + 1)%Z neval' (lam' / c_gain cfg)))
            else lm_outer f solve data wgt p0 mask None None prel pabs cfg fuel (S fi) p' (Some (chi2', chi20)) (lam' / c_gain cfg) (niter + 1)%Z neval'
        end))) tr1).
    { cbn [lm_outer]. unfold sbind at 1. rewrite EB. cbn [fst snd].
      unfold sbind at 1. unfold slift at 1. rewrite Edm. unfold sbind at 1. unfold slift at 1. rewrite Ewd.
      destruct chi as [[ca cb]|].
      - destruct Hchi as [-> ->]. unfold sbind at 1. unfold sret at 1. cbn [fst snd].
        unfold sbind at 1. unfold slift at 1. rewrite Ebe. unfold sbind at 1. unfold slift at 1. rewrite Ewdd.
        unfold sbind at 1. unfold slift at 1. rewrite Eal. unfold sbind at 1. unfold slift at 1. rewrite Ea. rewrite <- Ebl. reflexivity.
      - unfold sbind at 1. unfold sbind at 1. unfold slift at 1. rewrite Ecq. unfold sret at 1. cbn [fst snd].
        unfold sbind at 1. unfold slift at 1. rewrite Ebe. unfold sbind at 1. unfold slift at 1. rewrite Ewdd.
        unfold sbind at 1. unfold slift at 1. rewrite Eal. unfold sbind at 1. unfold slift at 1. rewrite Ea. rewrite EX. cbn in Hchi. rewrite Hchi, <- Ebl. reflexivity. }
    change (lX fp =? n0)%K with (Reqb (lX fp) 0) in RUN. destruct (Reqb_spec (lX fp) 0) as [Z|NZ].
    - left. split; [exact Z|]. exists tr1. rewrite RUN. rewrite Z. reflexivity.
    - right. split; [exact NZ|].
      destruct (lin_inner fi fp al bl lam (S neval) tr1 Lfp Hal Lbl Gbl Hl NZ) as (fp' & tr' & EI & Lf' & Le & Rate).
      exists fp', tr'. split; [exact Lf'|]. split; [exact Le|]. split; [exact Rate|]. intros conv.
      rewrite RUN. unfold sbind at 1. unfold slift at 1. unfold sbind at 1. rewrite EI. fold conv.
      change (conv + conv <=? c_tol cfg)%K with (Rleb (conv + conv) (c_tol cfg)).
      destruct (Rleb _ _); [reflexivity|]. destruct (_ <=? _)%Z; reflexivity.
  Qed.

  (* factor by which the step number k reduces the distance from the least chi2 *)
  Definition shrink (kap lam : R) (k : nat) : R := let mu := lam / c_gain cfg ^ k * kap in (mu / (1 + mu)) ^ 2.
  Hypothesis (Hg : 0 < c_gain cfg) (Htol : c_tol cfg < 2).
  Lemma shrink_S kap lam k : shrink kap lam (S k) = shrink kap (lam / c_gain cfg) k.
  Proof using Hg.
    unfold shrink. replace (lam / c_gain cfg ^ S k) with (lam / c_gain cfg / c_gain cfg ^ k); [reflexivity|].
    cbn [pow]. field. split; [apply pow_nonzero; lra|lra].
  Qed.
  Lemma rate_shrink kap lam x x' y : 0 <= lam -> 0 < kap ->
    (1 + 2 * (lam * kap)) * (x' - y) <= (lam * kap) ^ 2 * (x - x') -> x' - y <= shrink kap lam 0 * (x - y).
  Proof using Hg.
    intros Hl Hk H. unfold shrink. cbn [pow]. replace (lam / 1) with lam by field. set (mu := lam * kap) in *.
    assert (M : 0 <= mu) by (apply Rmult_le_pos; lra).
    apply (Rmult_le_reg_l ((1 + mu) * (1 + mu))); [apply Rmult_lt_0_compat; lra|].
    replace ((1 + mu) * (1 + mu) * (mu / (1 + mu) * (mu / (1 + mu) * 1) * (x - y))) with (mu * mu * (x - y)) by (field; lra).
    cbn [pow] in H. lra.
  Qed.

  Lemma lin_loop fi : forall fuel fp chi chi20 lam niter neval tr, length fp = nf -> chi_ok chi fp chi20 -> 0 <= lam ->
    (1 <= fuel)%nat -> (c_itmax cfg - niter <= Z.of_nat fuel)%Z ->
    exists o tr' j, lm_outer f solve data wgt p0 mask None None prel pabs cfg fuel (S fi) fp chi lam niter neval tr = (Ok (Some o), tr') /\
      length (o_p o) = nf /\ o_chi2 o = lX (o_p o) /\ o_chi20 o = chi20 /\ is_alpha (o_alpha o) /\
      o_niter o = (niter + Z.of_nat j)%Z /\ o_lam o = lam / c_gain cfg ^ j /\
      (o_niter o <= Z.max (c_itmax cfg) (niter + 1))%Z /\ (neval + 2 * j <= o_neval o <= neval + 2 * j + 2)%nat /\
      lX (o_p o) <= lX fp /\
      forall kap s, kap_ok kap -> length s = nf ->
        lX (o_p o) - lX s <= rprod j (shrink kap lam) * (lX fp - lX s) /\
        ((o_niter o < c_itmax cfg)%Z -> let mu := o_lam o * kap in
           (1 + 2 * mu) * (lX (o_p o) - lX s) <= mu ^ 2 * (2 * c_tol cfg / (2 - c_tol cfg)) * lX (o_p o)) /\
        (0 <= c_tol cfg -> (forall r, length r = nf -> lX s <= lX r) ->
           forall i, (i < j)%nat -> c_tol cfg * lX s < rprod i (shrink kap lam) * (lX fp - lX s)).
  Proof using Sd Sw Hw GB GN Hind Hso Hg Htol.
    induction fuel as [|fuel IH]; intros fp chi chi20 lam niter neval tr Lfp Hchi Hl Hf1 Hf2; [lia|].
    destruct (lin_pass fuel fi fp chi chi20 lam niter neval tr Lfp Hchi Hl) as (al & Hal & [(Z & tr' & E)|(NZ & fp' & tr' & Lf' & Le & Rate & E)]).
    - exists (LmOut fp 0 chi20 al niter (S neval) lam), tr', 0%nat. split; [exact E|]. cbn [o_p o_chi2 o_chi20 o_alpha o_niter o_lam o_neval].
      split; [exact Lfp|]. split; [auto|]. split; [reflexivity|]. split; [exact Hal|]. split; [lia|]. split; [cbn; field|].
      split; [lia|]. split; [lia|]. split; [lra|]. intros kap s Hk Ls. split; [cbn; lra|]. split; [|lia]. intros _. set (mu := lam * kap). rewrite Z. rewrite !Rmult_0_r.
      pose proof (lX_nonneg s) as P. assert (M : 0 <= mu) by (apply Rmult_le_pos; [exact Hl|destruct Hk; lra]).
      assert (0 <= (1 + 2 * mu) * lX s) by (apply Rmult_le_pos; lra). lra.
    - cbv zeta in E. set (conv := (lX fp - lX fp') / (lX fp + lX fp')) in *.
      pose proof (lX_nonneg fp) as P0. pose proof (lX_nonneg fp') as P1. assert (PX : 0 < lX fp) by lra.
      destruct (Rleb_spec (conv + conv) (c_tol cfg)) as [CV|CV].
      + exists (LmOut fp' (lX fp') chi20 al niter (S (S neval)) lam), tr', 0%nat. split; [exact E|]. cbn [o_p o_chi2 o_chi20 o_alpha o_niter o_lam o_neval].
        split; [exact Lf'|]. split; [reflexivity|]. split; [reflexivity|]. split; [exact Hal|]. split; [lia|]. split; [cbn; field|].
        split; [lia|]. split; [lia|]. split; [exact Le|]. intros kap s Hk Ls. split; [cbn; lra|]. split; [|lia]. intros _. set (mu := lam * kap).
        eapply Rle_trans; [apply (Rate kap s Hk Ls)|]. fold mu. rewrite Rmult_assoc. apply Rmult_le_compat_l; [apply pow2_ge_0|].
        assert (C2 : 2 * (lX fp - lX fp') <= c_tol cfg * (lX fp + lX fp')).
        { replace (2 * (lX fp - lX fp')) with ((conv + conv) * (lX fp + lX fp')) by (unfold conv; field; lra). apply Rmult_le_compat_r; lra. }
        apply (Rmult_le_reg_l (2 - c_tol cfg)); [lra|].
        replace ((2 - c_tol cfg) * (2 * c_tol cfg / (2 - c_tol cfg) * lX fp')) with (2 * c_tol cfg * lX fp') by (field; lra). lra.
      + assert (P1' : forall kap s, kap_ok kap -> length s = nf -> lX fp' - lX s <= shrink kap lam 0 * (lX fp - lX s)).
        { intros kap s Hk Ls. apply rate_shrink; [exact Hl|apply Hk|apply (Rate kap s Hk Ls)]. }
        assert (P2' : forall s, length s = nf -> 0 <= c_tol cfg -> (forall r, length r = nf -> lX s <= lX r) -> c_tol cfg * lX s < rprod 0 (fun _ => 0) * (lX fp - lX s)).
        { intros s Ls T0 Hs. pose proof (Hs fp' Lf') as Q. cbn. rewrite Rmult_1_l.
          assert (C2 : c_tol cfg * (lX fp + lX fp') < 2 * (lX fp - lX fp')).
          { replace (2 * (lX fp - lX fp')) with ((conv + conv) * (lX fp + lX fp')) by (unfold conv; field; lra). apply Rmult_lt_compat_r; lra. }
          assert (C3 : c_tol cfg * (2 * lX s) <= c_tol cfg * (lX fp + lX fp')) by (apply Rmult_le_compat_l; lra). lra. }
        destruct (Z.leb_spec (c_itmax cfg) (niter + 1)) as [IM|IM].
        * exists (LmOut fp' (lX fp') chi20 al (niter + 1)%Z (S (S neval)) (lam / c_gain cfg)), tr', 1%nat. split; [exact E|]. cbn [o_p o_chi2 o_chi20 o_alpha o_niter o_lam o_neval].
          split; [exact Lf'|]. split; [reflexivity|]. split; [reflexivity|]. split; [exact Hal|]. split; [lia|]. split; [cbn; field; lra|].
          split; [lia|]. split; [lia|]. split; [exact Le|]. intros kap s Hk Ls. split; [|split; [lia|]].
          { cbn [rprod]. rewrite Rmult_1_l. apply P1'; auto. }
          intros T0 Hs i Hi. replace i with 0%nat by lia. apply P2'; auto.
        * assert (Hl' : 0 <= lam / c_gain cfg) by (apply Rmult_le_pos; [exact Hl|left; apply Rinv_0_lt_compat, Hg]).
          destruct (IH fp' (Some (lX fp', chi20)) chi20 (lam / c_gain cfg) (niter + 1)%Z (S (S neval)) tr' Lf' (conj eq_refl eq_refl) Hl' ltac:(lia) ltac:(lia))
            as (o & tr2 & j & E2 & O1 & O2 & O3 & O4 & O5 & O6 & O7 & O8 & O9 & O10).
          exists o, tr2, (S j). rewrite E. split; [exact E2|]. split; [exact O1|]. split; [exact O2|]. split; [exact O3|]. split; [exact O4|].
          split; [lia|]. split; [rewrite O6; cbn [pow]; field; split; [apply pow_nonzero; lra|lra]|]. split; [lia|]. split; [lia|]. split; [lra|].
          intros kap s Hk Ls. destruct (O10 kap s Hk Ls) as (Q1 & Q2 & Q3).
          assert (PR : forall i, rprod i (shrink kap (lam / c_gain cfg)) * (lX fp' - lX s) <= rprod (S i) (shrink kap lam) * (lX fp - lX s)).
          { intros i. rewrite rprod_S_l. rewrite (rprod_ext i (fun i => shrink kap lam (S i)) (shrink kap (lam / c_gain cfg))) by (intros; apply shrink_S).
            assert (PN : 0 <= rprod i (shrink kap (lam / c_gain cfg))) by (apply rprod_nonneg; intros; apply pow2_ge_0).
            replace (shrink kap lam 0 * rprod i (shrink kap (lam / c_gain cfg)) * (lX fp - lX s))
              with (rprod i (shrink kap (lam / c_gain cfg)) * (shrink kap lam 0 * (lX fp - lX s))) by ring.
            apply Rmult_le_compat_l; [exact PN|]. apply P1'; auto. }
          split; [eapply Rle_trans; [exact Q1|apply PR]|]. split; [exact Q2|]. intros T0 Hs [|i] Hi.
          -- apply P2'; auto.
          -- eapply Rlt_le_trans; [apply (Q3 T0 Hs i); lia|apply PR].
  Qed.
End Loop.

(* ---- C111 ---- *)
(* f is linear in its n parameters: c0 + p_0 A_0 + ... ; a generator yields the A_i *)
Definition linear_fun (f : @lfun R) (n N : nat) (c0 : nat -> R) (A : nat -> nat -> R) : Prop :=
  let is_val (v : nd R) (p : list R) := shp v = [N] /\ forall t, (t < N)%nat -> get v [t] = c0 t + rsum n (fun i => nth i p 0 * A i t) in
  match f with
  | LPlain h => forall k p, length p = n -> exists v, h k p = Ok v /\ is_val v p
  | LGen h => forall k p, length p = n -> exists v D, h k p = (Ok v, Ok D) /\ is_val v p /\ shp D = [n; N] /\
      forall i t, (i < n)%nat -> (t < N)%nat -> get D [i; t] = A i t
  end.
Definition lin_cost (data : nd R) (kw : @lmkw R) (n : nat) (c0 : nat -> R) (A : nat -> nat -> R) (q : list R) : R :=
  rsum (npts data) (fun t => ((dpt data t - (c0 t + rsum n (fun i => nth i q 0 * A i t))) / leps data kw t) ^ 2).
(* how far the A_i are from being orthogonal: the sum of the squared lengths of A_i times
   the variances of the parameters (for orthogonal ones the number of free parameters) *)
Definition inflation (data : nd R) (kw : @lmkw R) (n : nat) (A : nat -> nat -> R) (pcov : arr2 R) : R :=
  rsum n (fun i => rsum (npts data) (fun t => (A i t / leps data kw t) ^ 2) * at2 pcov i i).

Definition rows_of (n N : nat) (A : nat -> nat -> R) : nd R := Nd [n; N] (fun idx => A (nth 0 idx 0%nat) (nth 1 idx 0%nat)).

(* the two evaluations of f *)
Section Evals.
  Variables (f : @lfun R) (p0 : list R) (mask : list bool) (prel pabs : list R) (N : nat) (c0 : nat -> R) (A : nat -> nat -> R).
  Local Notation n := (length p0).
  Local Notation nf := (nfree mask).
  Hypothesis (Lm : length mask = n) (Lr : length prel = n) (La : length pabs = n) (Hnf : (0 < nf)%nat).
  Hypothesis (Hlin : linear_fun f n N c0 A).
  Hypothesis Hpos : match f with LPlain _ => forall i, (i < n)%nat -> 0 < nth i pabs 0 | LGen _ => True end.
  Definition fixed_part (t : nat) : R := c0 t + rsum n (fun i => if nth i mask false then 0 else nth i p0 0 * A i t).
  Definition free_part (k t : nat) : R := A (nth k (sel mask (seq 0 n)) 0%nat) t.

  Lemma nth_put fp i : length fp = nf -> (i < n)%nat -> nth i (put mask p0 fp) 0 = if nth i mask false then nth (rank_of mask i) fp 0 else nth i p0 0.
  Proof using Lm.
    intros Lf Hi. destruct (nth i mask false) eqn:Q.
    - rewrite <- (sel_nth mask (put mask p0 fp) i 0 Q), sel_put by auto. reflexivity.
    - apply put_fixed. rewrite (nth_indep _ true false) by (rewrite Lm; exact Hi). exact Q.
  Qed.
  Lemma lval_put fp t : length fp = nf -> lval mask fixed_part free_part fp t = c0 t + rsum n (fun i => nth i (put mask p0 fp) 0 * A i t).
  Proof using Lm.
    intros Lf. unfold lval, fixed_part, free_part. rewrite Rplus_assoc. f_equal.
    rewrite (rsum_ext n (fun i => nth i (put mask p0 fp) 0 * A i t)
      (fun i => (if nth i mask false then 0 else nth i p0 0 * A i t) + (if nth i mask false then nth (rank_of mask i) fp 0 * A i t else 0))).
    - rewrite rsum_plus. f_equal. pose proof (sum_free (fun r m => nth r fp 0 * A m t) mask) as S. rewrite Lm in S. symmetry. exact S.
    - intros i Hi. rewrite (nth_put fp i Lf Hi). destruct (nth i mask false); ring.
  Qed.
  Lemma lin_next fp tr : length fp = nf -> exists v tr', g_next f p0 mask fp tr = (Ok v, tr') /\ good_v mask N fixed_part free_part fp v.
  Proof using Lm Hlin.
    clear Hpos. intros Lf. unfold g_next, good_v. destruct f as [h|h].
    - destruct (Hlin (length tr) (put mask p0 fp) (put_length _ _ _)) as (v & E & Sv & Gv).
      exists v, (tr ++ [put mask p0 fp]). unfold call_plain. rewrite E. split; [reflexivity|]. split; [exact Sv|].
      intros t Ht. rewrite lval_put by exact Lf. apply Gv, Ht.
    - destruct (Hlin (length tr) (put mask p0 fp) (put_length _ _ _)) as (v & D & E & (Sv & Gv) & _).
      exists v, (tr ++ [put mask p0 fp]). unfold sbind, call_gen, slift. rewrite E. split; [reflexivity|]. split; [exact Sv|].
      intros t Ht. rewrite lval_put by exact Lf. apply Gv, Ht.
  Qed.
  Lemma lin_both fp tr : length fp = nf -> exists v d tr', g_both f p0 mask None None prel pabs fp tr = (Ok (v, d), tr') /\
    good_v mask N fixed_part free_part fp v /\ shp d = [nf; N] /\
    forall i t, (i < nf)%nat -> (t < N)%nat -> get d [i; t] = free_part i t.
  Proof using Lm Lr La Hnf Hlin Hpos.
    intros Lf. unfold g_both, good_v. destruct f as [h|h].
    - set (pf := put mask p0 fp). assert (Lp : length pf = n) by apply put_length.
      destruct (Hlin (length tr) pf Lp) as (v & E & Sv & Gv).
      set (V := fun k q => match h k q with Ok v => v | Err _ => Nd [] (fun _ => 0) end).
      assert (HV : forall k q, length q = length pf -> h k q = Ok (V k q) /\ shp (V k q) = [N]).
      { intros k q Lq. destruct (Hlin k q ltac:(congruence)) as (u & Eu & Su & _). unfold V. rewrite Eu. split; auto. }
      destruct (C71_partials h None None prel pabs mask pf v (tr ++ [pf])) as (qs & T & _ & _ & _ & H).
      { repeat split; try congruence; intros l Q; discriminate. }
      assert (NX : forall k, ~ exceeds None prel pabs mask pf k) by (intros k (hi & Q & _); discriminate).
      destruct (H V [N] HV Sv) as [_ H2]; [intros ((k & _ & Q) & _); apply (NX k Q)|].
      rewrite (free_len prel pabs mask pf) in * by congruence.
      assert (DN : forall k d, (k < nf)%nat -> is_delta None prel pabs mask pf k d -> d <> 0).
      { intros k d Hk [_ B]. rewrite (B (NX k)). unfold dstep.
        destruct (fr_spec prel pabs mask pf ltac:(congruence) ltac:(congruence) ltac:(congruence) k Hk) as (F1 & _).
        specialize (Hpos (fr mask pf k) ltac:(lia)). pose proof (Rmax_r (nth (fr mask pf k) prel 0 * Rabs (nth (fr mask pf k) pf 0)) (nth (fr mask pf k) pabs 0)). lra. }
      destruct (H2 Hnf) as (D & ED & SD & Lq & G).
      { intros k Hk Q. apply (DN k 0 Hk Q). reflexivity. }
      exists v, D, ((tr ++ [pf]) ++ qs).
      split.
      { unfold sbind, call_plain. rewrite E. destruct (numerical_partials h None None prel pabs mask pf v (tr ++ [pf])) as [r tr2].
        cbn [fst snd] in *. subst r tr2. reflexivity. }
      split; [split; [exact Sv|]; intros t Ht; rewrite lval_put by exact Lf; apply Gv, Ht|]. split; [exact SD|].
      intros i t Hi Ht. destruct (G i [t] Hi (inb1 _ _ Ht)) as (d & Hd & (M1 & M2 & M3) & ->). pose proof (DN i d Hi Hd) as Hd0.
      destruct (fr_spec prel pabs mask pf ltac:(congruence) ltac:(congruence) ltac:(congruence) i Hi) as (F1 & _).
      destruct (Hlin (length (tr ++ [pf]) + i)%nat (nth i qs []) ltac:(congruence)) as (u & Eu & Su & Gu).
      unfold V. rewrite Eu, (Gu t Ht), (Gv t Ht).
      assert (E1 : rsum n (fun l => nth l (nth i qs []) 0 * A l t) = rsum n (fun l => nth l pf 0 * A l t) + A (fr mask pf i) t * d).
      { rewrite <- (rsum_pick n (fr mask pf i) (fun l => A l t * d)) by lia. rewrite <- rsum_plus. apply rsum_ext. intros l Hl.
        destruct (Nat.eqb_spec (fr mask pf i) l) as [<-|Hn]; [rewrite M2; ring|rewrite M3 by auto; ring]. }
      rewrite E1. unfold free_part. replace (nth i (sel mask (seq 0 n)) 0%nat) with (fr mask pf i).
      + field. exact Hd0.
      + unfold fr. rewrite (free_sel prel pabs) by congruence. rewrite Lp. reflexivity.
    - destruct (Hlin (length tr) (put mask p0 fp) (put_length _ _ _)) as (v & D & E & (Sv & Gv) & SD & GD).
      unfold sbind, call_gen, slift, sret. rewrite E. cbn [fst snd]. unfold sel_rows. rewrite SD, Lm, Nat.eqb_refl.
      eexists. eexists. eexists. split; [reflexivity|]. split; [split; [exact Sv|]; intros t Ht; rewrite lval_put by exact Lf; apply Gv, Ht|].
      cbn [shp get hd tl]. rewrite sel_length by (rewrite seq_length; exact Lm). split; [reflexivity|].
      intros i t Hi Ht. unfold free_part. apply GD; [|exact Ht]. apply (fidx_spec mask n i Lm Hi).
  Qed.
End Evals.

(* C111: a model that is linear in the parameters and has independent A_i, without bounds.
   Every trial step is accepted (two evaluations per iteration, lamda divided by the gain
   each time), there is no exception, chi2 does not grow and pcov is the inverse of the normal
   matrix, also with finite differences.  With kap = inflation, the distance of chi2
   from that of any other parameters q shrinks in iteration k by at least the factor
   (mu/(1+mu))^2 for mu = kap lambda0 / gain^k, and unless itmax ends the iterations the final chi2
   exceeds the least one by at most mu^2/(1+2mu) 2tol/(2-tol) times itself.  The number of
   iterations is at most the first i for which the product of the factors times the initial
   distance is at most tol times the least chi2. *)
Theorem C111_linear f solve inv fo fi cfg data p0 kw c0 A :
  let n := length p0 in let N := npts data in
  lm_args_ok data p0 kw -> lerrs_ok data kw -> k_pmin kw = None -> k_pmax kw = None ->
  linear_fun f n N c0 A ->
  match f with LPlain _ => forall i, (i < n)%nat -> 0 < step_abs cfg kw i | LGen _ => True end ->
  (forall v : nat -> R, (forall i, (i < n)%nat -> fixed_par n (k_pfix kw) i -> v i = 0) ->
     (forall t, (t < N)%nat -> rsum n (fun i => v i * A i t) = 0) -> forall i, (i < n)%nat -> v i = 0) ->
  0 < c_gain cfg -> 0 <= c_lambda0 cfg -> c_tol cfg < 2 -> solve_ok solve -> inv_ok inv ->
  (passes cfg <= fo)%nat -> (1 <= fi)%nat ->
  let chi2 := lin_cost data kw n c0 A in
  exists m j, fst (levmar_run f solve inv fo fi cfg data p0 kw []) = Ok (Some m) /\
    (length (l_p m) = n /\ forall i, (i < n)%nat -> fixed_par n (k_pfix kw) i -> nth i (l_p m) 0 = nth i p0 0) /\
    l_chi2 m = chi2 (l_p m) / IZR (l_ndof m) /\ l_chi20 m = chi2 p0 / IZR (l_ndof m) /\ chi2 (l_p m) <= chi2 p0 /\
    l_niter m = Z.of_nat j /\ (j <= passes cfg)%nat /\ (2 * j <= l_neval m <= 2 * j + 2)%nat /\ l_lam m = c_lambda0 cfg / c_gain cfg ^ j /\
    is_cov data p0 kw (rows_of n N A) (l_pcov m) /\
    let kap := inflation data kw n A (l_pcov m) in
    let mu k := c_lambda0 cfg / c_gain cfg ^ k * kap in
    0 < kap /\
    forall q, length q = n -> (forall i, (i < n)%nat -> fixed_par n (k_pfix kw) i -> nth i q 0 = nth i p0 0) ->
      chi2 (l_p m) - chi2 q <= rprod j (fun k => (mu k / (1 + mu k)) ^ 2) * (chi2 p0 - chi2 q) /\
      ((l_niter m < c_itmax cfg)%Z ->
         (1 + 2 * mu j) * (chi2 (l_p m) - chi2 q) <= mu j ^ 2 * (2 * c_tol cfg / (2 - c_tol cfg)) * chi2 (l_p m)) /\
      (0 <= c_tol cfg -> (forall r, chi2 q <= chi2 r) ->
         forall i, rprod i (fun k => (mu k / (1 + mu k)) ^ 2) * (chi2 p0 - chi2 q) <= c_tol cfg * chi2 q -> (j <= i)%nat).
Proof.
  intros n N Ha Herr Hlo Hhi Hlin Hst Hind Hg Hl0 Htol Hso Hin Hfo Hfi chi2. assert (Ln : n = length p0) by reflexivity.
  destruct (lm_setup_ok cfg data p0 kw Ha) as (errs & pmin & pmax & prel & pabs & mask & E0 & Serr & Em & Lm & Hnf & E1 & E2 & E3 & E4).
  pose proof (levmar_setup f solve inv fo fi cfg data p0 kw errs pmin pmax prel pabs mask E0 Em E1 E2 E3 E4) as RUN.
  rewrite Hlo in E1. rewrite Hhi in E2. injection E1 as <-. injection E2 as <-. cbn [option_map] in RUN.
  pose proof (bc_list_len _ _ _ E3) as Lr. pose proof (bc_list_len _ _ _ E4) as La.
  assert (Hpos : match f with LPlain _ => forall i, (i < n)%nat -> 0 < nth i pabs 0 | LGen _ => True end).
  { destruct f; [|exact I]. intros i Hi. rewrite (bc_list_nth _ _ _ _ 0 E4 Hi). specialize (Hst i Hi). unfold step_abs, bnd in Hst. destruct (k_pabs kw); exact Hst. }
  set (c := fixed_part p0 mask c0 A). set (B := free_part p0 mask A). set (w := wgt_of errs) in *.
  assert (Sw : shp w = [N]) by (unfold w, wgt_of, nravel, N, npts; cbn; rewrite Serr; reflexivity).
  assert (WP : forall t, (t < N)%nat -> get w [t] = / leps data kw t ^ 2 /\ 0 < get w [t]) by (intros t Ht; apply (wgt_pos data kw errs Herr E0 t Ht)).
  assert (Hw : forall t, (t < N)%nat -> 0 < get w [t]) by (intros t Ht; apply WP, Ht).
  set (X := lX (nravel data) w mask N c B).
  assert (XC : forall fp, length fp = nfree mask -> X fp = chi2 (put mask p0 fp)).
  { intros fp Lf. unfold X, lX, chi2, lin_cost. apply rsum_ext. intros t Ht. unfold c, B. rewrite (lval_put p0 mask c0 A Lm fp t Lf).
    change (get (nravel data) [t]) with (dpt data t). rewrite (proj1 (WP t Ht)). unfold Rdiv. rewrite Rpow_mult_distr, pow_inv. fold n. ring. }
  assert (IND : forall v : nat -> R, (forall t, (t < N)%nat -> rsum (nfree mask) (fun i => v i * B i t) = 0) -> forall i, (i < nfree mask)%nat -> v i = 0).
  { intros v Hv i Hi. set (cv := fun m => if nth m mask false then v (rank_of mask m) else 0).
    destruct (fidx_spec mask n i Lm Hi) as (J1 & J2 & J3). set (j := nth i (sel mask (seq 0 n)) 0%nat) in *.
    assert (E : cv j = 0).
    { apply (Hind cv); auto.
      - intros q Hq Hfx. apply (mask_fixed _ _ _ _ Em Hq) in Hfx. unfold cv. rewrite (nth_indep _ false true) by lia. rewrite Hfx. reflexivity.
      - intros t Ht. rewrite <- (Hv t Ht).
        rewrite (rsum_ext _ _ (fun q => if nth q mask false then v (rank_of mask q) * A q t else 0)).
        + unfold n. rewrite <- Lm. rewrite (sum_free (fun i q => v i * A q t)). rewrite Lm. reflexivity.
        + intros q Hq. unfold cv. destruct (nth q mask false); ring. }
    unfold cv in E. rewrite J2, J3 in E. exact E. }
  destruct fi as [|fi]; [lia|]. unfold passes in Hfo.
  destruct (lin_loop f solve (nravel data) w p0 mask prel pabs cfg N c B eq_refl Sw Hw
     (lin_both f p0 mask prel pabs N c0 A Lm Lr La Hnf Hlin Hpos) (lin_next f p0 mask N c0 A Lm Hlin) IND Hso Hg Htol
     fi fo (sel mask p0) None (X (sel mask p0)) (c_lambda0 cfg) 0%Z 0%nat [] (sel_length _ _ Lm) eq_refl Hl0 ltac:(lia) ltac:(lia))
    as (o & tr & j & EO & O1 & O2 & O3 & O4 & O5 & O6 & O7 & O8 & O9 & O10). fold X in O2, O9, O10.
  rewrite EO in RUN. cbn [lm_finish] in RUN.
  pose proof (alpha_nonsing w mask N B Hw IND (o_alpha o) 0 O4 (Rle_refl 0)) as NS0. destruct O4 as (A1 & A2 & Ga).
  assert (NSA : nonsing (nfree mask) (at2 (o_alpha o))).
  { intros v Hv. apply NS0. intros i Hi. refine (eq_trans _ (Hv i Hi)). apply rsum_ext. intros l Hl. cbn. numR. destruct (i =? l)%nat; ring. }
  destruct (Hin (nfree mask) (o_alpha o) A1 A2) as [HA _]. destruct (HA NSA) as (ci & Ec & C1 & C2 & C3).
  unfold spread in RUN. fold (nfree mask) in RUN. rewrite Ec, C1, C2, Nat.eqb_refl in RUN. cbn [andb] in RUN. rewrite RUN.
  eexists. exists j. split; [reflexivity|]. cbn [l_p l_chi2 l_chi20 l_ndof l_niter l_neval l_lam l_pcov]. rewrite O2, O3, !XC by (auto; apply sel_length, Lm).
  rewrite (put_sel mask p0 Lm).
  split. { split; [apply put_length|]. intros i Hi Hfx. apply put_fixed. apply (mask_fixed _ _ _ _ Em Hi), Hfx. }
  split; [reflexivity|]. split; [reflexivity|].
  split. { rewrite !XC, (put_sel mask p0 Lm) in O9 by (auto; apply sel_length, Lm). exact O9. }
  split; [exact O5|]. split; [unfold passes; lia|]. split; [lia|]. split; [exact O6|].
  split.
  { apply (cov_spread data p0 kw mask errs (o_alpha o) ci (rows_of (nfree mask) N B)); auto.
    unfold spread. fold (nfree mask). rewrite C1, C2, Nat.eqb_refl. reflexivity. }
  set (kap := inflation _ _ _ _ _). cbv zeta.
  assert (GA : forall i k, (i < nfree mask)%nat -> (k < nfree mask)%nat -> at2 (o_alpha o) i k = rsum N (fun t => get w [t] * B i t * B k t)) by (intros; apply Ga; auto).
  assert (KE : kap = rsum (nfree mask) (fun i => lgram w N B i i * at2 ci i i)).
  { unfold kap, inflation. cbn [at2].
    rewrite (rsum_ext n _ (fun i => if nth i mask false then rsum N (fun t => get w [t] * A i t * A i t) * at2 ci (rank_of mask i) (rank_of mask i) else 0)).
    - unfold n. rewrite <- Lm. rewrite (sum_free (fun r m => rsum N (fun t => get w [t] * A m t * A m t) * at2 ci r r)), Lm. reflexivity.
    - intros i Hi. destruct (nth i mask false); cbn [andb]; [|apply Rmult_0_r]. f_equal. apply rsum_ext. intros t Ht. rewrite (proj1 (WP t Ht)).
      unfold Rdiv. rewrite Rpow_mult_distr, pow_inv. ring. }
  assert (KO : kap_ok w mask N B kap).
  { split.
    - rewrite KE. destruct (inv_gram (nfree mask) N (fun t => get w [t]) B (at2 (o_alpha o)) (at2 ci) Hw GA C3) as [_ PC].
      assert (PT : forall i, (i < nfree mask)%nat -> 0 < lgram w N B i i * at2 ci i i).
      { intros i Hi. apply Rmult_lt_0_compat; [|apply PC, Hi].
        pose proof (diag_nonneg (nfree mask) N (fun t => get w [t]) B (lgram w N B) Hw (fun _ _ _ _ => eq_refl) i Hi) as [P|P]; [exact P|exfalso].
        (* a zero diagonal element would make A_i vanish *)
        pose proof (IND (fun k => if (i =? k)%nat then 1 else 0)) as Q. assert (F : (if (i =? i)%nat then 1 else 0) = 0); [|rewrite Nat.eqb_refl in F; lra].
        apply Q; [|exact Hi]. intros t Ht. rewrite (rsum_pick (nfree mask) i (fun k => B k t) Hi).
        assert (Z0 : get w [t] * B i t * B i t = 0).
        { apply (rsum_nonneg_0 N (fun t => get w [t] * B i t * B i t)); [|symmetry; exact P|exact Ht].
          intros k Hk. rewrite Rmult_assoc. apply Rmult_le_pos; [left; apply Hw, Hk|apply (Rle_0_sqr (B i k))]. }
        pose proof (Hw t Ht). apply Rmult_integral in Z0 as [Z0|Z0]; [apply Rmult_integral in Z0 as [Z0|Z0]; [lra|exact Z0]|exact Z0]. }
      assert (G0 : 0 <= rsum (nfree mask) (fun i => lgram w N B i i * at2 ci i i)) by (apply rsum_nonneg; intros i Hi; left; apply PT, Hi).
      destruct G0 as [G0|G0]; [exact G0|exfalso]. symmetry in G0.
      pose proof (rsum_nonneg_0 _ _ (fun i Hi => Rlt_le _ _ (PT i Hi)) G0 0%nat Hnf) as Z0. cbn beta in Z0. specialize (PT 0%nat Hnf). lra.
    - intros s. rewrite KE. pose proof (cov_bound (nfree mask) N (fun t => get w [t]) B (at2 (o_alpha o)) (at2 ci) s Hw GA C3) as CB.
      unfold lin_d in *. rewrite (rsum_ext _ (fun i => lgram w N B i i * s i ^ 2) (fun i => at2 (o_alpha o) i i * s i ^ 2)) by (intros i Hi; rewrite Ga by auto; reflexivity).
      eapply Rle_trans; [exact CB|]. right. f_equal. apply rsum_ext. intros i Hi. rewrite Ga by auto. reflexivity. }
  split; [apply KO|]. intros q Lq Hq.
  assert (PQ : put mask p0 (sel mask q) = q).
  { apply (nth_ext _ _ 0 0); [rewrite put_length; congruence|]. rewrite put_length. intros i Hi.
    rewrite (nth_put p0 mask Lm) by (auto; apply sel_length; congruence). destruct (nth i mask false) eqn:Q.
    - apply sel_nth, Q.
    - symmetry. apply Hq; auto. apply (mask_fixed _ _ _ _ Em Hi). rewrite (nth_indep _ true false) by lia. exact Q. }
  destruct (O10 kap (sel mask q) KO ltac:(apply sel_length; congruence)) as (Q1 & Q2 & Q3).
  rewrite !XC, PQ, (put_sel mask p0 Lm) in Q1 by (auto; apply sel_length; congruence). rewrite O6, !XC, PQ in Q2 by (auto; apply sel_length; congruence).
  split; [exact Q1|]. split; [exact Q2|]. intros T0 Hmin i Hi. destruct (Nat.le_gt_cases j i) as [|HL]; [assumption|exfalso].
  specialize (Q3 T0). rewrite !XC, PQ, (put_sel mask p0 Lm) in Q3 by (auto; apply sel_length; congruence).
  specialize (Q3 ltac:(intros r Lr'; rewrite XC by exact Lr'; apply Hmin) i HL). change (rprod i (shrink cfg kap (c_lambda0 cfg)) * (chi2 p0 - chi2 q) <= c_tol cfg * chi2 q) in Hi. lra.
Qed.

(* a straight line through three points, with finite differences and the default options,
   from p0 = (0, 0): chi2 = 1/6 to 11 digits in at most 2 iterations *)
Definition line_f (_ : nat) (p : list R) : res (nd R) :=
  let a := nth 0 p 0 in let b := nth 1 p 0 in Ok (vec 0 [a; a + b; a + 2 * b]).
Definition line_A (i t : nat) : R := match i with O => 1 | _ => INR t end.
Example ex_C111 : exists m,
  fst (levmar_run (LPlain line_f) g_solve g_inv 100 1 lm_default (vec 0 [1; 2; 4]) [0; 0] no_kw []) = Ok (Some m) /\
  1 / 6 <= l_chi2 m <= 1 / 6 * (1 + / 10 ^ 11) /\ (l_niter m <= 2)%Z /\ (l_neval m <= 6)%nat /\ inflation (vec 0 [1; 2; 4]) no_kw 2 line_A (l_pcov m) = 5.
Proof.
  destruct (C111_linear (LPlain line_f) g_solve g_inv 100 1 lm_default (vec 0 [1; 2; 4]) [0; 0] no_kw (fun _ => 0) line_A)
    as (m & j & E & (Lp & _) & X1 & _ & _ & J1 & J2 & NE & _ & COV & KP & H).
  - unfold lm_args_ok. cbn. repeat split; try (intros l Q; discriminate); try discriminate.
    exists 0%nat. split; [lia|]. intros (l & z & Q & _). discriminate.
  - exact I.
  - reflexivity.
  - reflexivity.
  - intros k p Lp. eexists. split; [reflexivity|]. split; [reflexivity|]. intros t Ht. cbn in Ht.
    destruct t as [|[|[|t]]]; [| | |lia]; cbn; unfold line_A; cbn; ring.
  - intros i Hi. unfold step_abs. cbn. numR. lra.
  - intros v _ Hv. pose proof (Hv 0%nat ltac:(cbn; lia)) as H0. pose proof (Hv 1%nat ltac:(cbn; lia)) as H1. cbn in H0, H1.
    intros i Hi. cbn in Hi. destruct i as [|[|i]]; [lra|lra|lia].
  - cbn. numR. lra.
  - cbn. numR. lra.
  - cbn. numR. lra.
  - apply linalg_exists.
  - apply linalg_exists.
  - cbn. lia.
  - lia.
  - exists m. split; [exact E|].
    (* the covariances *)
    assert (NF : forall i, ~ fixed_par 2 (k_pfix no_kw) i) by (intros i (l & z & Q & _); discriminate).
    destruct COV as (_ & _ & _ & I1 & _).
    assert (G : forall i k, (i < 2)%nat -> (k < 2)%nat -> gram (vec 0 [1; 2; 4]) no_kw (rows_of 2 3 line_A) i k = match i, k with O, O => 3 | S O, S O => 5 | _, _ => 3 end).
    { intros i k Hi Hk. unfold gram, leps, rows_of. cbn. destruct i as [|[|i]]; [| |lia]; destruct k as [|[|k]]; try lia; unfold line_A; cbn; field. }
    pose proof (I1 0%nat 0%nat ltac:(cbn; lia) ltac:(cbn; lia) (NF _) (NF _)) as Q1. pose proof (I1 0%nat 1%nat ltac:(cbn; lia) ltac:(cbn; lia) (NF _) (NF _)) as Q2.
    pose proof (I1 1%nat 0%nat ltac:(cbn; lia) ltac:(cbn; lia) (NF _) (NF _)) as Q3. pose proof (I1 1%nat 1%nat ltac:(cbn; lia) ltac:(cbn; lia) (NF _) (NF _)) as Q4.
    change (npts (vec 0 [1; 2; 4])) with 3%nat in *. cbn [length rsum] in Q1, Q2, Q3, Q4. rewrite !G in Q1, Q2, Q3, Q4 by lia. cbn in Q1, Q2, Q3, Q4.
    assert (KE : inflation (vec 0 [1; 2; 4]) no_kw 2 line_A (l_pcov m) = 5).
    { unfold inflation, leps. cbn. unfold line_A. cbn. lra. }
    (* chi2 of the best line and of any other *)
    set (chi2 := lin_cost (vec 0 [1; 2; 4]) no_kw 2 (fun _ => 0) line_A) in *.
    assert (C : forall q, chi2 q = (1 - nth 0 q 0) ^ 2 + (2 - nth 0 q 0 - nth 1 q 0) ^ 2 + (4 - nth 0 q 0 - 2 * nth 1 q 0) ^ 2).
    { intros q. unfold chi2, lin_cost, dpt, leps. cbn. unfold line_A. cbn. field. }
    destruct (H [5 / 6; 3 / 2] eq_refl) as (H1 & H2 & H3); [intros i _ Q; contradiction (NF i Q)|].
    cbn [length] in KP, H1, H2, H3. fold chi2 in H1, H2, H3. rewrite KE in H1, H2, H3.
    assert (C1 : chi2 [5 / 6; 3 / 2] = 1 / 6) by (rewrite C; cbn; field). assert (C0 : chi2 [0; 0] = 21) by (rewrite C; cbn; field).
    rewrite C1 in H1, H2, H3. rewrite C0 in H1, H3.
    assert (MIN : forall q, 1 / 6 <= chi2 q).
    { intros q. rewrite C. set (x := nth 0 q 0). set (y := nth 1 q 0).
      pose proof (Rle_0_sqr (x + y - 7 / 3)) as S1. pose proof (Rle_0_sqr (y - 3 / 2)) as S2. unfold Rsqr in S1, S2. nra. }
    assert (J3 : (j <= 2)%nat).
    { apply H3; [cbn; numR; lra|exact MIN|]. cbn [rprod pow lm_default c_lambda0 c_gain c_tol]. numR.
      change (IZR (10 ^ 3)) with 1000. change (IZR (10 ^ 7)) with 10000000. lra. }
    assert (ND : l_ndof m = 1%Z).
    { destruct (levmar_unfold (LPlain line_f) g_solve g_inv 100 1 lm_default (vec 0 [1; 2; 4]) [0; 0] no_kw) as [[e Q]|(errs & pmin & pmax & prel & pabs & mask & _ & Em & _ & _ & _ & _ & Q)];
        rewrite Q in E; [discriminate|].
      destruct (lm_outer _ _ _ _ _ _ _ _ _ _ _ _ _ _ _ _ _ _ _) as [[[o|]|e] tr]; try discriminate.
      cbn [lm_finish] in E. destruct (g_inv (o_alpha o)); [|discriminate]. destruct (spread mask a); [|discriminate].
      injection E as <-. cbn in Em. injection Em as <-. reflexivity. }
    split; [|split; [lia|split; [lia|exact KE]]].
    rewrite X1, ND. cbn [length]. fold chi2. replace (chi2 (l_p m) / IZR 1) with (chi2 (l_p m)) by field.
    split; [apply MIN|].
    assert (MU : 0 <= c_lambda0 (@lm_default R _) / c_gain (@lm_default R _) ^ j * 5 <= 1 / 200).
    { cbn [lm_default c_lambda0 c_gain]. numR. assert (P : 1 <= 10 ^ j) by (apply pow_R1_Rle; lra).
      assert (P2 : 0 < / 10 ^ j <= 1) by (split; [apply Rinv_0_lt_compat; lra|rewrite <- Rinv_1; apply Rinv_le_contravar; lra]).
      change (IZR 10) with 10. replace (1 / IZR (10 ^ 3) / 10 ^ j * 5) with (1 / 200 * / 10 ^ j); [split; lra|].
      change (IZR (10 ^ 3)) with 1000. field. lra. }
    specialize (H2 ltac:(cbn [lm_default c_itmax]; lia)). destruct MU as [M1 M2]. set (mu := c_lambda0 lm_default / c_gain lm_default ^ j * 5) in *.
    assert (T2 : 0 <= 2 * c_tol (@lm_default R _) / (2 - c_tol (@lm_default R _)) <= 2 / 10 ^ 7).
    { cbn [lm_default c_tol]. numR. change (10 ^ 7)%Z with 10000000%Z. lra. }
    set (tt := 2 * c_tol lm_default / (2 - c_tol lm_default)) in *. pose proof (MIN (l_p m)) as PX.
    assert (M3 : mu ^ 2 * tt <= / 10 ^ 11 / 2).
    { assert (S1 : mu ^ 2 <= (1 / 200) ^ 2) by (apply pow_incr; lra). assert (0 <= mu ^ 2) by apply pow2_ge_0.
      apply Rle_trans with ((1 / 200) ^ 2 * (2 / 10 ^ 7)); [apply Rmult_le_compat; tauto|]. lra. }
    assert (M4 : mu ^ 2 * tt * chi2 (l_p m) <= / 10 ^ 11 / 2 * chi2 (l_p m)) by (apply Rmult_le_compat_r; lra).
    assert (M5 : chi2 (l_p m) - 1 / 6 <= (1 + 2 * mu) * (chi2 (l_p m) - 1 / 6)).
    { rewrite <- (Rmult_1_l (chi2 (l_p m) - 1 / 6)) at 1. apply Rmult_le_compat_r; lra. }
    lra.
Qed.

Print Assumptions C111_linear.
