(* C120, the PerPwPoly first: p + q, p - q and p * q of a PerPwPoly p and a PwPoly q (npplus/pwpoly.py:710-786). *)
From Coq Require Import List Arith ZArith Bool Lia Reals Lra.
From Verif Require Import Num PyBase NdArray NdLemmas Poly SpecPoly PolyProofs PwPoly PwBase PwDeriv PwKnots PwArith PropsPw PropsArith PropsMixed.
Import ListNotations.
Local Open Scope R_scope.

(* q needs no new coefficients and no new dimensions, and its knots lie in the base interval of p *)
Definition guest (p q : pwpoly R) : Prop :=
  (length (pshape p) <= length (pshape q))%nat /\
  forall y, In y (pxk q) -> nth 0 (pxk p) 0 <= y <= nth (length (pxk p) - 1) (pxk p) 0.

Lemma binary_guest p q skip : pw_wf p -> pw_wf q -> pcl p = Per -> pcl q = Pw -> separated tol6 (pxk p) (pxk q) ->
  guest p q -> (skip = true \/ (cn (pc p) <= cn (pc q))%nat) ->
  exists this q' zk,
    binary p q skip = Ok (this, pc q') /\
    like p this (length (csh (pc q)) - length (csh (pc p))) (if skip then cn (pc p) else cn (pc q)) zk /\
    like q q' (length (csh (pc p)) - length (csh (pc q))) (cn (pc q)) zk /\
    incr zk /\ (forall x, In x zk <-> In x (pxk p) \/ In x (pxk q)) /\ same_ends (pxk p) zk.
Proof.
  intros Wp Wq Cp Cq Hsep (Hdim & Hends) Hdeg. unfold pshape in Hdim. unfold binary.
  set (nd := Nat.max (cn (pc p)) (cn (pc q))). set (la0 := length (csh (pc p))) in *. set (lb0 := length (csh (pc q))) in *.
  assert (P1 : exists p1, (if negb skip && negb (cn (pc p) =? nd)%nat then new (pcl p) (pxk0 p) (cpad nd (pc p)) else Ok p) = Ok p1
     /\ like p p1 0 (if skip then cn (pc p) else cn (pc q)) (pxk p)).
  { destruct skip; cbn [negb andb].
    - exists p. split; auto. apply like_refl; auto.
    - assert (nd = cn (pc q)) as En by (unfold nd; destruct Hdeg; [discriminate|lia]). rewrite <- En.
      destruct (Nat.eqb_spec (cn (pc p)) nd) as [E|N]; cbn [negb].
      + exists p. split; auto. rewrite <- E. apply like_refl; auto.
      + destruct (like_trans_pad p p 0 _ nd _ (like_refl p Wp)) as (r & E & L); [lia|]. exists r; auto. }
  assert (Q1 : (if negb skip && negb (cn (pc q) =? nd)%nat then new (pcl p) (pxk0 q) (cpad nd (pc q)) else Ok q) = Ok q).
  { destruct skip; cbn [negb andb]; [reflexivity|]. replace (cn (pc q) =? nd)%nat with true; [reflexivity|].
    symmetry. apply Nat.eqb_eq. unfold nd. destruct Hdeg; [discriminate|lia]. }
  rewrite Q1. destruct P1 as (p1 & -> & LP1). cbn [bind].
  assert (Ea : length (csh (pc p1)) = la0) by (rewrite (lk_sh _ _ _ _ _ LP1); reflexivity). rewrite Ea. fold lb0.
  set (np := if skip then cn (pc p) else cn (pc q)) in *.
  assert (P2 : exists p2, (if (la0 <? lb0)%nat then new (pcl p) (pxk0 p1) (cdims (lb0 - la0) (pc p1)) else Ok p1) = Ok p2
     /\ like p p2 (lb0 - la0) np (pxk p)).
  { destruct (Nat.ltb_spec la0 lb0) as [L|L].
    - apply like_trans_dims; auto.
    - exists p1. replace (lb0 - la0)%nat with 0%nat by lia. auto. }
  destruct P2 as (p2 & -> & LP2). destruct (Nat.ltb_spec lb0 la0) as [|_]; [lia|]. cbn [bind].
  replace (la0 - lb0)%nat with 0%nat by lia.
  assert (EXp : pxk p2 = pxk p) by (unfold pxk at 1; rewrite (lk_xk0 _ _ _ _ _ LP2); reflexivity).
  unfold allknots. cbn [allknots_loop]. rewrite EXp.
  destruct (allknots1_exact tol6 true (pxk p) (pxk q) tol6_pos (wf_inc p Wp) (wf_inc q Wq) (wf_nk p Wp) (wf_nk q Wq) Hsep)
    as (same & zk & E & Hi & Hl & Hin & Hsame).
  rewrite E. cbn [bind].
  assert (HE : same_ends (pxk p) zk).
  { assert (HF : forall l, incr l -> (1 <= length l)%nat -> forall y, In y l -> nth 0 l 0 <= y <= nth (length l - 1) l 0).
    { intros l Hil Hll y Hy. destruct (In_nth _ _ 0 Hy) as (i & Hi2 & <-). split; apply incr_le; auto; lia. }
    pose proof (HF _ (wf_inc p Wp) (wf_nk p Wp)) as Fp. pose proof (HF _ Hi Hl) as Fz. pose proof (wf_nk p Wp). split; apply Rle_antisym.
    - assert (In (nth 0 zk 0) zk) as Hz by (apply nth_In; lia). apply Hin in Hz. destruct Hz as [Hz|Hz]; [apply Fp|apply Hends]; auto.
    - apply Fz. apply Hin. left. apply nth_In. lia.
    - apply Fz. apply Hin. left. apply nth_In. lia.
    - assert (In (nth (length zk - 1) zk 0) zk) as Hz by (apply nth_In; lia). apply Hin in Hz. destruct Hz as [Hz|Hz]; [apply Fp|apply Hends]; auto. }
  destruct same.
  - destruct (Hsame eq_refl) as (_ & ->).
    assert (EQ : pxk q = pxk p).
    { apply incr_ext; [apply Wq|apply Wp|]. intros x; split; intros Hx; [apply Hin; auto|].
      unfold allknots1 in E. destruct (eqlist (pxk p) (pxk q)) eqn:EE.
      - apply eqlist_eq in EE. rewrite <- EE; auto.
      - exfalso. destruct (length (pxk p) <? length (pxk q))%nat eqn:EL.
        + apply Nat.ltb_lt in EL. destruct (1 <? length (pxk q))%nat eqn:E1; [discriminate|].
          apply Nat.ltb_ge in E1. pose proof (wf_nk p Wp). lia.
        + destruct (1 <? length (pxk p))%nat eqn:E1; [discriminate|]. apply Nat.ltb_ge in E1, EL.
          destruct (wf_per p Wp Cp) as (? & _). lia. }
    exists p2, q, (pxk p). split; [reflexivity|]. split; [exact LP2|]. split; [rewrite <- EQ at 1; apply like_refl; auto|].
    split; [apply Wp|]. split; [exact Hin|exact HE].
  - destruct (like_knots p p2 _ _ _ zk LP2 Hi Hl) as (p3 & E3 & LP3).
    { intros y Hy. apply Hin; auto. } { intros _; exact HE. }
    destruct (like_knots q q _ _ _ zk (like_refl q Wq) Hi Hl) as (q3 & E4 & LQ3).
    { intros y Hy. apply Hin; auto. } { intros EP; congruence. }
    rewrite E3, E4. cbn [bind]. exists p3, q3, zk. split; [reflexivity|]. repeat (split; [assumption|]). exact HE.
Qed.

(* a coefficient array made periodic *)
Lemma make_per (c : carr R) r0 xk0 zk : new Pw xk0 c = Ok r0 -> pw_wf r0 -> xk0 = nth 0 zk 0 :: zk -> pxk r0 = zk -> (2 <= length zk)%nat ->
  exists r, new Per xk0 c = Ok r /\ pw_wf r /\ pcl r = Per /\ pxk r = zk /\ csh (pc r) = csh (pc r0) /\ cn (pc r) = cn (pc r0) /\
    forall comp y, nth 0 zk 0 < y < nth (length zk - 1) zk 0 -> base r comp y = base r0 comp y.
Proof.
  intros E W X Z L. unfold new, rawinit in *. set (xk1 := if (length xk0 =? ck c)%nat then xk0 else firstn 1 xk0 ++ xk0) in *.
  injection E as <-. cbn [pc pxk0] in *. assert (T : tl xk1 = zk) by exact Z. rewrite T.
  destruct (Nat.ltb_spec (length zk) 2); [lia|]. pose proof (cwf_n _ (wf_c _ W)) as N. cbn [pc] in N. destruct (Nat.eqb_spec (cn c) 0); [lia|].
  pose proof (ck_eq _ W) as K. cbn [pc] in K. rewrite Z in K.
  assert (X1 : xk1 = xk0) by (unfold xk1; rewrite X; cbn [length]; rewrite K, Nat.eqb_refl; reflexivity).
  eexists. split; [reflexivity|]. cbn [pcl pxk0 pc csh cn per_fix].
  assert (PF : forall comp i, (1 <= i < length zk)%nat -> ccol (per_fix zk c) comp i = ccol c comp i).
  { intros comp i Hi. cbn [per_fix ccol]. rewrite K. destruct (Nat.eqb_spec i (S (length zk) - 1)); [lia|]. destruct (Nat.eqb_spec i 0); [lia|reflexivity]. }
  split; [|split; [reflexivity|]; split; [exact T|]; split; [reflexivity|]; split; [reflexivity|]].
  - split; cbn [pc pxk0 pcl pper].
    + split; cbn [per_fix cn csh ck]; [exact N|]. intros comp i Hb Hi. cbn [ccol per_fix]. rewrite K in *.
      pose proof (cwf_col _ (wf_c _ W)) as CW. cbn [pc] in CW. rewrite K in CW.
      destruct (Nat.eqb_spec i (S (length zk) - 1)).
      * destruct (Nat.eqb_spec (S (length zk) - 2) 0); [lia|]. assert (LL : length (ccol c comp (S (length zk) - 2)%nat) = cn c) by (apply CW; [exact Hb|lia]). rewrite pshift_length; [exact LL|intros Q; rewrite Q in LL; cbn in LL; lia].
      * destruct (Nat.eqb_spec i 0); apply CW; try exact Hb; lia.
    + apply (wf_len _ W).
    + apply (wf_nk _ W).
    + apply (wf_first _ W).
    + apply (wf_inc _ W).
    + intros _. unfold pxk. cbn [pxk0]. rewrite T. split; [exact L|]. split; [reflexivity|]. intros comp Hb. cbn [per_fix ccol csh ck]. rewrite K.
      replace (S (length zk) - 1)%nat with (length zk) by lia. replace (S (length zk) - 2)%nat with (length zk - 1)%nat by lia. rewrite Nat.eqb_refl.
      destruct (Nat.eqb_spec 0 (length zk)); [lia|]. destruct (Nat.eqb_spec 1 (length zk)); [lia|].
      destruct (Nat.eqb_spec (length zk - 1) (length zk)); [lia|]. destruct (Nat.eqb_spec (length zk - 1) 0); [lia|]. cbn [Nat.eqb]. rewrite ?Nat.eqb_refl. split; reflexivity.
  - intros comp y Hy. unfold base, pxk. cbn [pxk0 pc]. rewrite T.
    assert (I : incr zk) by (rewrite <- Z; apply W). destruct (ssearch_piece zk y I) as (B0 & B1 & B2). set (i := ssearch zk y) in *.
    rewrite PF; [reflexivity|]. split.
    + destruct (Nat.eq_dec i 0) as [E0|]; [|lia]. pose proof (B2 0%nat ltac:(lia)). lra.
    + destruct (le_lt_dec (length zk) i) as [G|]; [|lia]. pose proof (B1 (length zk - 1)%nat ltac:(lia)). lra.
Qed.

Lemma like_unper p q d n xk : like p q d n xk -> like (unper p) (unper q) d n xk.
Proof. intros [W C S N X B]. split; auto. apply unper_wf; auto. Qed.

(* elementwise combination: the result is periodic with the period of p *)
Lemma combine_guest p this q q' zk n np f (op : R -> R -> R) s :
  pw_wf p -> pw_wf q -> pcl p = Per -> pcl q = Pw ->
  like p this (length (csh (pc q)) - length (csh (pc p))) np zk ->
  like q q' (length (csh (pc p)) - length (csh (pc q))) (cn (pc q)) zk ->
  incr zk -> same_ends (pxk p) zk -> (1 <= n)%nat -> (1 <= np)%nat ->
  (forall a b, length a = np -> length b = cn (pc q) -> length (f a b) = n /\ forall x, peval (f a b) x = op (peval a x) (peval b x)) ->
  bshape (csh (pc p)) (csh (pc q)) = Some s ->
  exists r, (let! c := cmap2 n f (pc this) (pc q') in new (pcl p) (pxk0 this) c)%res = Ok r /\ pw_wf r /\ pcl r = Per /\
    pxk r = zk /\ pshape r = s /\ pdeg r = (n - 1)%nat /\
    forall comp y (k : Z), inb comp s -> nth 0 (pxk p) 0 < y < nth (length (pxk p) - 1) (pxk p) 0 ->
      pw_val r comp (y + IZR k * per_len p) = op (pw_val p (bidx (pshape p) comp) (y + IZR k * per_len p)) (pw_val q (bidx (pshape q) comp) y).
Proof.
  intros Wp Wq Cp Cq LP LQ Hi HE Hn Hnp Hf Hs. pose proof (cwf_n _ (wf_c _ Wq)).
  destruct (combine_ok (unper p) (unper this) q q' zk n np (cn (pc q)) f op s (like_unper _ _ _ _ _ LP) LQ) as (c & r0 & E1 & E2 & W0 & R1 & R2 & R3 & R4 & R5); auto.
  change (pc (unper this)) with (pc this) in E1. change (pxk0 (unper this)) with (pxk0 this) in E2. change (pcl (unper p)) with Pw in E2.
  assert (L2 : (2 <= length zk)%nat).
  { pose proof (wf_per _ (lk_wf _ _ _ _ _ LP)) as H1. rewrite (lk_cl _ _ _ _ _ LP) in H1. destruct (H1 Cp) as (H2 & _). unfold pxk in H2. rewrite (lk_xk0 _ _ _ _ _ LP) in H2. exact H2. }
  destruct (make_per c r0 (pxk0 this) zk E2 W0 (lk_xk0 _ _ _ _ _ LP) R2 L2) as (r & E3 & Wr & Cr & Xr & Sr & Nr & Br).
  exists r. rewrite E1. cbn [bind]. rewrite Cp. split; [exact E3|]. split; [exact Wr|]. split; [exact Cr|]. split; [exact Xr|].
  split; [unfold pshape; congruence|]. split; [unfold pdeg; congruence|]. intros comp y k Hb Hy. destruct HE as (H0 & H1).
  assert (PL : per_len r = per_len p) by (unfold per_len; rewrite Xr; congruence).
  rewrite !pw_val_base, (pw_reduce_Pw q) by auto.
  rewrite (reduce_unique p (y + IZR k * per_len p) y k Wp Cp); [|ring|unfold per_len; lra].
  rewrite (reduce_unique r (y + IZR k * per_len p) y k Wr Cr); [|rewrite PL; ring|rewrite PL, Xr, <- H0; unfold per_len; lra].
  rewrite Br by (rewrite <- H0, <- H1; exact Hy). rewrite R5 by exact Hb. reflexivity.
Qed.

(** ** C120, PerPwPoly first *)
(* If q has the degree of p or more, as many dimensions or more, and its knots in the base interval of p, then p + q, p - q
   and p * q are PerPwPolys with the period of p; with y strictly inside the base interval their values at y and all its
   translates are those of p there combined with q(y).  Missing: q of lower degree or dimension (C120_mixed_refuted), knots of
   q outside the base interval *)
Theorem C120_periodic_partial : forall (p q : pwpoly R) (s : list nat),
  pw_wf p -> pw_wf q -> pcl p = Per -> pcl q = Pw -> well_separated (1 / 1000000) (pxk p ++ pxk q) -> bshape (pshape p) (pshape q) = Some s ->
  (pdeg p <= pdeg q)%nat -> (length (pshape p) <= length (pshape q))%nat ->
  let a0 := nth 0 (pxk p) 0 in let a1 := nth (length (pxk p) - 1) (pxk p) 0 in
  (forall y, In y (pxk q) -> a0 <= y <= a1) ->
  exists a d m, padd p q = Ok a /\ psub p q = Ok d /\ pmul p q = Ok m /\
    (pcl a = Per /\ pcl d = Per /\ pcl m = Per) /\ (pshape a = s /\ pshape d = s /\ pshape m = s) /\
    (pdeg a = pdeg q /\ pdeg d = pdeg q /\ pdeg m = (pdeg p + pdeg q)%nat) /\
    (forall x, In x (pxk a) <-> In x (pxk p) \/ In x (pxk q)) /\ pxk d = pxk a /\ pxk m = pxk a /\
    forall comp y (k : Z), inb comp s -> a0 < y < a1 ->
      let x := y + IZR k * (a1 - a0) in
      exists u v, pw_call p (bidx (pshape p) comp) x = Ok u /\ pw_call q (bidx (pshape q) comp) y = Ok v /\
        pw_call a comp x = Ok (u + v) /\ pw_call d comp x = Ok (u - v) /\ pw_call m comp x = Ok (u * v).
Proof.
  intros p q s Wp Wq Cp Cq Hsep Hs Hdeg Hdim a0 a1 Hk.
  pose proof (cwf_n _ (wf_c _ Wp)) as Np. pose proof (cwf_n _ (wf_c _ Wq)) as Nq.
  assert (HD : (cn (pc p) <= cn (pc q))%nat) by (unfold pdeg in Hdeg; lia).
  assert (Sep : separated tol6 (pxk p) (pxk q)).
  { apply well_separated_separated. replace (@tol6 R _) with (1 / 1000000) by (unfold tol6; numR; reflexivity). exact Hsep. }
  assert (G : guest p q) by (split; auto).
  destruct (binary_guest p q false Wp Wq Cp Cq Sep G (or_intror HD)) as (t1 & q1 & z1 & B1 & LP1 & LQ1 & I1 & In1 & E1).
  destruct (binary_guest p q true Wp Wq Cp Cq Sep G (or_introl eq_refl)) as (t2 & q2 & z2 & B2 & LP2 & LQ2 & I2 & In2 & E2).
  destruct (combine_guest p t1 q q1 z1 (cn (pc q)) (cn (pc q)) (zipw Rplus) Rplus s) as (a & Ea & Wa & Ca & Xa & Sa & Da & Va); auto.
  { intros u v Lu Lv. split; [rewrite zipw_length; lia|]. intros x. rewrite (zipw_peval 1 Rplus); [ring|intros; ring|congruence]. }
  destruct (combine_guest p t1 q q1 z1 (cn (pc q)) (cn (pc q)) (zipw Rminus) Rminus s) as (d & Ed & Wd & Cd & Xd & Sd & Dd & Vd); auto.
  { intros u v Lu Lv. split; [rewrite zipw_length; lia|]. intros x. rewrite (zipw_peval (-1) Rminus); [ring|intros; ring|congruence]. }
  set (f := if (cn (pc p) <? cn (pc q))%nat then (fun x y => pmul_col y x) else @pmul_col R _).
  destruct (combine_guest p t2 q q2 z2 (cn (pc p) + cn (pc q) - 1)%nat (cn (pc p)) f Rmult s) as (m & Em & Wm & Cm & Xm & Sm & Dm & Vm); auto; [lia| |].
  { intros u v Lu Lv. unfold f. destruct (cn (pc p) <? cn (pc q))%nat; (split; [rewrite pmul_col_length by lia; lia|]; intros x; rewrite pmul_col_peval by lia; ring). }
  assert (Z : z2 = z1) by (apply incr_ext; auto; intros x; rewrite In1, In2; reflexivity).
  exists a, d, m. split; [unfold padd; rewrite B1; cbn [bind]; rewrite (lk_cn _ _ _ _ _ LP1); exact Ea|].
  split; [unfold psub; rewrite B1; cbn [bind]; rewrite (lk_cn _ _ _ _ _ LP1); exact Ed|].
  split.
  { unfold pmul. rewrite B2. cbn [bind]. rewrite (lk_cn _ _ _ _ _ LP2), (lk_cn _ _ _ _ _ LQ2). rewrite <- Em. unfold f.
    destruct (Nat.ltb_spec (cn (pc p)) (cn (pc q))); rewrite (lk_cn _ _ _ _ _ LP2), (lk_cn _ _ _ _ _ LQ2); [|reflexivity].
    rewrite cmap2_swap. replace (cn (pc q) + cn (pc p) - 1)%nat with (cn (pc p) + cn (pc q) - 1)%nat by lia. reflexivity. }
  split; [auto|]. split; [auto|]. split; [rewrite Da, Dd, Dm; unfold pdeg; repeat split; lia|]. split; [rewrite Xa; exact In1|].
  split; [congruence|]. split; [congruence|]. intros comp y k Hb Hy x.
  rewrite !pw_call_wf by auto. do 2 eexists. split; [reflexivity|]. split; [reflexivity|].
  unfold x. change (a1 - a0) with (per_len p). rewrite Va, Vd, Vm by auto. auto.
Qed.
(* the periodic tent on the knots 0, 1, 2 and the same pieces without the period; at 3/2 - 2 * 5 the sum is the tent there
   and the other one at 3/2 *)
Example C120_periodic_case : exists a, padd ex_per (unper ex_per) = Ok a /\ pcl a = Per /\ pw_call a [] (3 / 2 + IZR (-5) * (2 - 0)) = Ok 1.
Proof.
  destruct (C120_periodic_partial ex_per (unper ex_per) [] ex_per_wf (unper_wf _ ex_per_wf) eq_refl eq_refl) as (a & d & m & Ea & _ & _ & (Ca & _) & _ & _ & _ & _ & _ & H).
  - apply (sep_list _ _ 2); [| |lra].
    + intros x y Hx Hy N. cbn in Hx, Hy. assert (x = 0 \/ x = 1 \/ x = 2) as Hx' by intuition. assert (y = 0 \/ y = 1 \/ y = 2) as Hy' by intuition.
      unfold Rabs. destruct Hx' as [->|[->| ->]], Hy' as [->|[->| ->]]; try (exfalso; apply N; reflexivity); repeat destruct (Rcase_abs _); split; lra.
    + intros u v Hu Hv. cbn in Hu, Hv. assert (u = 0 \/ u = 1 \/ u = 2) by intuition. assert (v = 0 \/ v = 1 \/ v = 2) by intuition. intuition; lra.
  - reflexivity.
  - cbn. lia.
  - cbn. lia.
  - intros y Hy. cbn in Hy. cbn. assert (y = 0 \/ y = 1 \/ y = 2) by intuition. intuition; lra.
  - exists a. split; [exact Ea|]. split; [exact Ca|].
    destruct (H [] (3 / 2) (-5)%Z (Forall2_nil _)) as (u & v & Hu & Hv & Hs & _); [cbn; lra|].
    change (nth (length (pxk ex_per) - 1) (pxk ex_per) 0 - nth 0 (pxk ex_per) 0) with (2 - 0) in Hu, Hs. rewrite Hs.
    rewrite pw_call_wf in Hu, Hv by (try apply unper_wf; apply ex_per_wf). rewrite (pw_val_base (unper ex_per)), pw_reduce_Pw in Hv by reflexivity.
    rewrite pw_val_base, (reduce_unique ex_per _ (3 / 2) (-5)%Z ex_per_wf eq_refl) in Hu; [|change (per_len ex_per) with (2 - 0); ring|change (per_len ex_per) with (2 - 0); cbn; lra].
    assert (B : base ex_per [] (3 / 2) = 1 / 2).
    { rewrite (base_piece ex_per [] 2); [unfold peval; cbn; lra|apply ex_per_wf|]. split; [cbn; lia|].
      split; intros j Hj; cbn in Hj; [assert (j = 0 \/ j = 1)%nat as [-> | ->] by lia|assert (j = 2)%nat as -> by lia]; cbn; lra. }
    change (Ok (base ex_per [] (3 / 2)) = Ok v) in Hv. change (Ok (base ex_per [] (3 / 2)) = Ok u) in Hu. rewrite B in Hu, Hv. injection Hu as <-. injection Hv as <-. f_equal. lra.
Qed.
Print Assumptions C120_periodic_partial.
