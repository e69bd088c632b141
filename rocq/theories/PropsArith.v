(* C41, C42, C43, C45, C46: arithmetic of piecewise polynomials, addknots and
   allknots (npplus/pwpoly.py:593-666, 710-786). *)
From Coq Require Import String Reals List Arith Lia Lra ZArith Bool.
From Verif Require Import Num PyBase NdArray Poly SpecPoly PolyProofs PwPoly PwBase PwDeriv PwKnots PwArith PropsPw.
Import ListNotations.
Local Open Scope R_scope.

(* distinct members of l differ by more than the merging tolerance, measured
   by the whole span of l and (as numpy.isclose does) by the members' size *)
Definition well_separated (tol : R) (l : list R) : Prop :=
  forall x y, In x l -> In y l -> x <> y ->
    (forall u v, In u l -> In v l -> tol * (v - u) < Rabs (x - y)) /\ tol + tol * Rabs y < Rabs (x - y).
Lemma well_separated_not_close tol l L y : well_separated tol l -> (forall x, In x L -> In x l) ->
  In y l -> ~ In y L -> ~ close_to tol L y.
Proof.
  intros H HL Hy Hn [(i & k & Hi & Hk & C)|(H1 & C)].
  - assert (Hx : In (nth i L 0) L) by (apply nth_In; exact Hi).
    destruct (H (nth i L 0) y) as (A & _); auto; [intros E; apply Hn; rewrite <- E; exact Hx|].
    specialize (A (nth k L 0) (nth (S k) L 0) (HL _ (nth_In L 0 (Nat.lt_succ_l _ _ Hk))) (HL _ (nth_In L 0 Hk))).
    rewrite Rabs_minus_sym in C. lra.
  - assert (Hx : In (nth 0 L 0) L) by (apply nth_In; lia).
    destruct (H (nth 0 L 0) y) as (_ & A); auto; [intros E; apply Hn; rewrite <- E; exact Hx|]. lra.
Qed.
Lemma well_separated_separated tol xs ys : well_separated tol (xs ++ ys) -> separated tol xs ys.
Proof.
  intros H y Hy. destruct (in_dec Req_EM_T y (longer xs ys)) as [|N]; [auto|right].
  apply (well_separated_not_close tol (xs ++ ys)); auto.
  - intros x Hx. apply in_app_iff, longer_shorter. auto.
  - apply in_app_iff, longer_shorter. auto.
Qed.

(* same kind of object, periodic ones with the same base interval, knots equal
   or well separated *)
Definition compatible (p q : pwpoly R) : Prop :=
  pw_wf p /\ pw_wf q /\ pcl q = pcl p /\
  (pcl p = Per -> nth 0 (pxk p) 0 = nth 0 (pxk q) 0 /\
                  nth (length (pxk p) - 1) (pxk p) 0 = nth (length (pxk q) - 1) (pxk q) 0) /\
  well_separated (1 / 1000000) (pxk p ++ pxk q).
Lemma compatible_operands p q : compatible p q -> operands p q.
Proof.
  intros (A & B & C & D & E). split; auto. apply well_separated_separated.
  replace (@tol6 R _) with (1 / 1000000) by (unfold tol6; numR; reflexivity). exact E.
Qed.

(* s is the broadcast shape of the two component shapes, bidx s' comp the
   index into an operand of shape s' *)
Theorem C41_add_sub_pointwise : forall (p q : pwpoly R) (s : list nat),
  compatible p q -> bshape (pshape p) (pshape q) = Some s ->
  exists a d d', padd p q = Ok a /\ psub p q = Ok d /\ prsub p q = Ok d' /\
    pshape a = s /\ pshape d = s /\ pshape d' = s /\
    pdeg a = Nat.max (pdeg p) (pdeg q) /\ pdeg d = Nat.max (pdeg p) (pdeg q) /\
    pcl a = pcl p /\ pcl d = pcl p /\ pcl d' = pcl p /\
    forall comp x, inb comp s ->
      exists u v, pw_call p (bidx (pshape p) comp) x = Ok u /\ pw_call q (bidx (pshape q) comp) x = Ok v /\
        pw_call a comp x = Ok (u + v) /\ pw_call d comp x = Ok (u - v) /\ pw_call d' comp x = Ok (v - u).
Proof.
  intros p q s Hc Hs. pose proof (compatible_operands p q Hc) as O. destruct Hc as (Wp & Wq & _).
  destruct (addsub_ok p q Rplus 1 s O) as (a & Ea & Pa & Da); [intros; ring|exact Hs|].
  destruct (addsub_ok p q Rminus (-1) s O) as (d & Ed & Pd & Dd); [intros; ring|exact Hs|].
  assert (O' : forall u v : R, v - u = (fun u v => v - u) u v) by reflexivity.
  assert (Hd' : exists d', prsub p q = Ok d' /\ pointwise (fun u v => v - u) p q d' s).
  { destruct (binary_ok p q false O) as (this & q' & zk & E & LP & LQ & Hi & Hin & HE).
    pose proof (cwf_n _ (wf_c _ Wp)). pose proof (cwf_n _ (wf_c _ Wq)).
    unfold prsub. rewrite E. cbn [bind]. set (n := Nat.max (cn (pc p)) (cn (pc q))) in *.
    rewrite (lk_cn _ _ _ _ _ LP).
    destruct (combine_ok p this q q' zk n n n (zipw (fun u v => v - u)) (fun u v => v - u) s LP LQ)
      as (c & r & E1 & E2 & Wr & R1 & R2 & R3 & R4 & R5); auto; try lia.
    - apply O.
    - intros u v Lu Lv. split; [rewrite zipw_length; lia|]. intros x. rewrite <- Lv in Lu. clear - Lu.
      revert v Lu. induction u as [|u0 u IH]; intros [|v0 v] Lu; cbn in Lu; try lia; cbn [zipw].
      + rewrite peval_nil. ring.
      + rewrite !peval_cons, (IH v) by lia. ring.
    - change (zipw (fun a b : R => (b - a)%K)) with (zipw (fun u v : R => v - u)). rewrite E1. cbn [bind].
      exists r. split; [exact E2|]. eapply pointwise_intro; eauto. }
  destruct Hd' as (d' & Ed' & Pd').
  exists a, d, d'. split; [exact Ea|]. split; [exact Ed|]. split; [exact Ed'|].
  split; [apply Pa|]. split; [apply Pd|]. split; [apply Pd'|]. split; [exact Da|]. split; [exact Dd|].
  split; [apply Pa|]. split; [apply Pd|]. split; [apply Pd'|].
  intros comp x Hcomp. exists (pw_val p (bidx (pshape p) comp) x), (pw_val q (bidx (pshape q) comp) x).
  rewrite !pw_call_wf by (auto; apply Pa || apply Pd || apply Pd').
  rewrite (pt_val _ _ _ _ _ Pa), (pt_val _ _ _ _ _ Pd), (pt_val _ _ _ _ _ Pd') by auto. auto.
Qed.
(* ex_p plus a one-knot vector-valued polynomial *)
Definition ex_q : pwpoly R := PwP Pw [1/2; 1/2] (CArr 3 [2%nat] 2 (fun comp _ => [1; INR (nth 0 comp 0%nat); 1])) None.
Example ex_q_wf : pw_wf ex_q.
Proof.
  split; cbn; try lia; try reflexivity.
  - split; cbn; [lia|]. reflexivity.
  - intros [|i] Hi; cbn in *; lia.
  - discriminate.
Qed.
Lemma sep_list tol l D :
  (forall x y, In x l -> In y l -> x <> y -> tol * D < Rabs (x - y) /\ tol + tol * Rabs y < Rabs (x - y)) ->
  (forall u v, In u l -> In v l -> v - u <= D) -> 0 <= tol -> well_separated tol l.
Proof.
  intros H HD Ht x y Hx Hy N. destruct (H x y Hx Hy N) as (A & B). split; [|exact B].
  intros u v Hu Hv. pose proof (HD u v Hu Hv). nra.
Qed.
Example ex_compatible : compatible ex_p ex_q.
Proof.
  split; [apply ex_p_wf|]. split; [apply ex_q_wf|]. split; [reflexivity|]. split; [discriminate|].
  apply (sep_list _ _ 1); [| |lra].
  - intros x y Hx Hy N. cbn in Hx, Hy.
    assert (Hx' : x = 0 \/ x = 1/2 \/ x = 1) by intuition. assert (Hy' : y = 0 \/ y = 1/2 \/ y = 1) by intuition.
    unfold Rabs. destruct Hx' as [->|[->| ->]], Hy' as [->|[->| ->]]; try (exfalso; apply N; reflexivity);
      repeat destruct (Rcase_abs _); split; lra.
  - intros u v Hu Hv. cbn in Hu, Hv.
    assert (u = 0 \/ u = 1/2 \/ u = 1) by intuition. assert (v = 0 \/ v = 1/2 \/ v = 1) by intuition. intuition; lra.
Qed.
Example C41_case : exists a, padd ex_p ex_q = Ok a /\ pshape a = [2%nat] /\ pdeg a = 2%nat /\
  pw_call a [1%nat] (1/2) = Ok (3/2).
Proof.
  destruct (C41_add_sub_pointwise ex_p ex_q [2%nat] ex_compatible eq_refl)
    as (a & d & d' & Ea & _ & _ & Sa & _ & _ & Da & _ & _ & _ & _ & H).
  exists a. split; [exact Ea|]. split; [exact Sa|]. split; [exact Da|].
  destruct (H [1%nat] (1/2) ltac:(repeat constructor)) as (u & v & Hu & Hv & Hs & _). rewrite Hs. f_equal.
  cbn [bidx pshape csh pc ex_p zipw] in Hu. rewrite C30_case in Hu. inversion Hu; subst u.
  rewrite pw_call_wf in Hv by apply ex_q_wf. rewrite pw_val_base, pw_reduce_Pw in Hv by reflexivity.
  rewrite (base_piece ex_q _ 0 (1/2)) in Hv; [|apply ex_q_wf|].
  - inversion Hv as [E]. unfold peval; cbn. lra.
  - split; [cbn; lia|]. split; intros j Hj; cbn in Hj; [lia|]. assert (j = 0%nat) by lia. subst; cbn; lra.
Qed.
Print Assumptions C41_add_sub_pointwise.

Theorem C42_mul_pointwise : forall (p q : pwpoly R) (s : list nat),
  compatible p q -> bshape (pshape p) (pshape q) = Some s ->
  exists r, pmul p q = Ok r /\ pshape r = s /\ pdeg r = (pdeg p + pdeg q)%nat /\ pcl r = pcl p /\
    forall comp x, inb comp s ->
      exists u v, pw_call p (bidx (pshape p) comp) x = Ok u /\ pw_call q (bidx (pshape q) comp) x = Ok v /\
        pw_call r comp x = Ok (u * v).
Proof.
  intros p q s Hc Hs. pose proof (compatible_operands p q Hc) as O. destruct Hc as (Wp & Wq & _).
  destruct (pmul_ok p q s O Hs) as (r & E & P & D).
  exists r. split; [exact E|]. split; [apply P|]. split; [exact D|]. split; [apply P|].
  intros comp x Hcomp. exists (pw_val p (bidx (pshape p) comp) x), (pw_val q (bidx (pshape q) comp) x).
  rewrite !pw_call_wf by (auto; apply P). rewrite (pt_val _ _ _ _ _ P) by auto. auto.
Qed.
Example C42_case : exists r, pmul ex_p ex_q = Ok r /\ pshape r = [2%nat] /\ pdeg r = 3%nat /\
  pw_call r [1%nat] (1/2) = Ok (1/2).
Proof.
  destruct (C42_mul_pointwise ex_p ex_q [2%nat] ex_compatible eq_refl) as (r & E & S & D & _ & H).
  exists r. split; [exact E|]. split; [exact S|]. split; [exact D|].
  destruct (H [1%nat] (1/2) ltac:(repeat constructor)) as (u & v & Hu & Hv & Hm). rewrite Hm. f_equal.
  cbn [bidx pshape csh pc ex_p zipw] in Hu. rewrite C30_case in Hu. inversion Hu; subst u.
  rewrite pw_call_wf in Hv by apply ex_q_wf. rewrite pw_val_base, pw_reduce_Pw in Hv by reflexivity.
  rewrite (base_piece ex_q _ 0 (1/2)) in Hv; [|apply ex_q_wf|].
  - inversion Hv as [E1]. unfold peval; cbn. lra.
  - split; [cbn; lia|]. split; intros j Hj; cbn in Hj; [lia|]. assert (j = 0%nat) by lia. subst; cbn; lra.
Qed.
Print Assumptions C42_mul_pointwise.

(* component shapes that do not broadcast raise ValueError *)
Theorem C41_shapes_must_broadcast : forall (p q : pwpoly R),
  compatible p q -> bshape (pshape p) (pshape q) = None ->
  padd p q = Err ValueError /\ psub p q = Err ValueError /\ pmul p q = Err ValueError.
Proof.
  intros p q Hc Hs. pose proof (compatible_operands p q Hc) as O.
  assert (HB : forall this q' zk np nq,
     like p this (length (csh (pc q)) - length (csh (pc p))) np zk ->
     like q q' (length (csh (pc p)) - length (csh (pc q))) nq zk ->
     bshape (csh (pc this)) (csh (pc q')) = None).
  { intros this q' zk np nq LP LQ. rewrite (lk_sh _ _ _ _ _ LP), (lk_sh _ _ _ _ _ LQ).
    unfold pshape in Hs. set (sp := csh (pc p)) in *. set (sq := csh (pc q)) in *.
    destruct (le_lt_dec (length sp) (length sq)) as [L|L].
    - replace (length sp - length sq)%nat with 0%nat by lia. cbn [repeat app].
      rewrite bshape_ones by lia. exact Hs.
    - replace (length sq - length sp)%nat with 0%nat by lia. cbn [repeat app].
      rewrite bshape_comm, bshape_ones by lia. rewrite bshape_comm. exact Hs. }
  destruct (binary_ok p q false O) as (t1 & q1 & z1 & E1 & LP1 & LQ1 & _).
  destruct (binary_ok p q true O) as (t2 & q2 & z2 & E2 & LP2 & LQ2 & _).
  pose proof (HB _ _ _ _ _ LP1 LQ1) as B1. pose proof (HB _ _ _ _ _ LP2 LQ2) as B2.
  unfold padd, psub, pmul. rewrite E1, E2. cbn [bind]. unfold cmap2. rewrite B1. cbn [bind].
  split; [reflexivity|]. split; [reflexivity|].
  destruct (cn (pc t2) <? cn (pc q2))%nat; [rewrite bshape_comm|]; rewrite B2; reflexivity.
Qed.
Print Assumptions C41_shapes_must_broadcast.

(* Arithmetic with a number raises TypeError for every p and s: the helper
   asfarray takes no dtype argument. *)
Theorem C43_number_arithmetic_refuted : forall (p : pwpoly R) (s : R),
  padd_num p s = Err TypeError /\ psub_num p s = Err TypeError /\ prsub_num p s = Err TypeError /\
  pmul_num p s = Err TypeError /\ pdiv_num p s = Err TypeError.
Proof. intros p s. repeat split; reflexivity. Qed.
Print Assumptions C43_number_arithmetic_refuted.
(* What the methods would do with an asfarray that takes a dtype argument: products and quotients would be right, but sums
   and differences would not, since the number is added to every coefficient. *)
Theorem C43_number_arithmetic_partial : forall (params : list String.string) (p : pwpoly R) (s : R),
  py_bind params 1 ["dtype"%string] = Ok tt -> pw_wf p -> pcl p = Pw ->
  (exists r, pmul_num_at params p s = Ok r /\
     forall comp x, inb comp (pshape p) -> pw_call r comp x = Ok (pw_val p comp x * s)) /\
  (exists r, pdiv_num_at params p s = Ok r /\
     forall comp x, inb comp (pshape p) -> pw_call r comp x = Ok (pw_val p comp x / s)) /\
  (exists r, padd_num_at params p s = Ok r /\
     forall comp x i, inb comp (pshape p) -> in_piece (pxk p) i x ->
       pw_call r comp x = Ok (pw_val p comp x + s * peval (repeat 1 (cn (pc p))) (x - left_knot (pxk p) i))) /\
  (exists r, psub_num_at params p s = Ok r /\
     forall comp x i, inb comp (pshape p) -> in_piece (pxk p) i x ->
       pw_call r comp x = Ok (pw_val p comp x - s * peval (repeat 1 (cn (pc p))) (x - left_knot (pxk p) i))) /\
  exists r, prsub_num_at params p s = Ok r /\
     forall comp x i, inb comp (pshape p) -> in_piece (pxk p) i x ->
       pw_call r comp x = Ok (s * peval (repeat 1 (cn (pc p))) (x - left_knot (pxk p) i) - pw_val p comp x).
Proof.
  intros params p s HB W EP. unfold pmul_num_at, pdiv_num_at, padd_num_at, psub_num_at, prsub_num_at, binary_num. rewrite HB. cbn [bind].
  unfold num_body, new, rawinit. cbn [cmap_num ck].
  rewrite (wf_len p W), Nat.eqb_refl, EP.
  assert (HV : forall f comp x, pw_call (PwP Pw (pxk0 p) (cmap_num f (pc p)) None) comp x
     = Ok (peval (map f (ccol (pc p) comp (ssearch (pxk p) x))) (x - nth (ssearch (pxk p) x) (pxk0 p) 0))).
  { intros f comp x. unfold pw_call, pw_ok. cbn [pc pxk0 pcl pper cmap_num cn ck].
    rewrite (wf_len p W), Nat.eqb_refl. pose proof (cwf_n _ (wf_c p W)). pose proof (ck_eq p W).
    destruct (Nat.eqb_spec (cn (pc p)) 0); [lia|]. destruct (Nat.eqb_spec (ck (pc p)) 0); [lia|].
    cbn [orb negb bind]. rewrite pw_val_base, pw_reduce_Pw by reflexivity. reflexivity. }
  assert (HP : forall comp x, pw_val p comp x = peval (ccol (pc p) comp (ssearch (pxk p) x)) (x - nth (ssearch (pxk p) x) (pxk0 p) 0)).
  { intros comp x. rewrite pw_val_base, pw_reduce_Pw by auto. reflexivity. }
  assert (PX : forall i x, in_piece (pxk p) i x -> ssearch (pxk p) x = i /\ nth i (pxk0 p) 0 = left_knot (pxk p) i /\ (i < ck (pc p))%nat).
  { intros i x Hi. split; [apply (ssearch_unique _ i x (wf_inc p W) Hi)|]. split; [destruct i; cbn [left_knot]; [apply W|apply pxk0_S]|].
    rewrite (ck_eq p W); destruct Hi; lia. }
  split; [|split; [|split; [|split]]]; eexists; (split; [reflexivity|]); intros comp x.
  - intros Hb. rewrite HV, HP. numR. rewrite peval_scale. f_equal; ring.
  - intros Hb. rewrite HV, HP. numR. unfold Rdiv. rewrite peval_scale. f_equal; ring.
  - intros i Hb Hi. destruct (PX i x Hi) as (P1 & P2 & P3). rewrite HV, HP. numR. rewrite P1, P2, <- (cwf_col _ (wf_c p W) comp i) by auto. f_equal.
    generalize (ccol (pc p) comp i) as c. generalize (x - left_knot (pxk p) i) as t.
    intros t c. induction c as [|a c IH]; cbn [map repeat length]; [rewrite peval_nil; ring|].
    rewrite !peval_cons, IH. ring.
  - intros i Hb Hi. destruct (PX i x Hi) as (P1 & P2 & P3). rewrite HV, HP. numR. rewrite P1, P2, <- (cwf_col _ (wf_c p W) comp i) by auto. f_equal.
    generalize (ccol (pc p) comp i) as c. generalize (x - left_knot (pxk p) i) as t.
    intros t c. induction c as [|a c IH]; cbn [map repeat length]; [rewrite peval_nil; ring|].
    rewrite !peval_cons, IH. ring.
  - intros i Hb Hi. destruct (PX i x Hi) as (P1 & P2 & P3). rewrite HV, HP. numR. rewrite P1, P2, <- (cwf_col _ (wf_c p W) comp i) by auto. f_equal.
    generalize (ccol (pc p) comp i) as c. generalize (x - left_knot (pxk p) i) as t.
    intros t c. induction c as [|a c IH]; cbn [map repeat length]; [rewrite peval_nil; ring|].
    rewrite !peval_cons, IH. ring.
Qed.
Example C43_case : exists r, padd_num_at ["a"; "dtype"]%string ex_p 1 = Ok r /\ pw_call r [] (1/2) = Ok 2.
Proof.
  destruct (C43_number_arithmetic_partial ["a"; "dtype"]%string ex_p 1 eq_refl ex_p_wf eq_refl) as (_ & _ & (r & E & H) & _).
  exists r. split; [exact E|]. rewrite (H [] (1/2) 1%nat (Forall2_nil _)).
  - pose proof C30_case as C. rewrite pw_call_wf in C by apply ex_p_wf. inversion C as [C1]. rewrite C1.
    f_equal. unfold peval; cbn. lra.
  - split; [cbn; lia|]. split; intros j Hj; cbn in Hj.
    + assert (j = 0%nat) by lia. subst; cbn. lra.
    + assert (j = 1%nat) by lia. subst; cbn. lra.
Qed.
Print Assumptions C43_number_arithmetic_partial.
(* dividing by a piecewise polynomial raises TypeError *)
Theorem C43_no_division : forall (p q : pwpoly R), compatible p q -> pdiv p q = Err TypeError.
Proof.
  intros p q Hc. destruct (binary_ok p q false (compatible_operands p q Hc)) as (t & q' & z & E & _).
  unfold pdiv. rewrite E. reflexivity.
Qed.
Print Assumptions C43_no_division.

(* addknots with a strictly increasing superset of the knots *)
Theorem C45_addknots : forall (p : pwpoly R) (xk : list R),
  pw_wf p -> incr xk -> (forall y, In y (pxk p) -> In y xk) ->
  (pcl p = Per -> nth 0 (pxk p) 0 = nth 0 xk 0 /\
                  nth (length (pxk p) - 1) (pxk p) 0 = nth (length xk - 1) xk 0) ->
  exists r, addknots p xk = Ok r /\ pw_wf r /\ pxk r = xk /\ pcl r = pcl p /\ pshape r = pshape p /\ pdeg r = pdeg p /\
    forall comp x, inb comp (pshape p) -> pw_call r comp x = pw_call p comp x.
Proof.
  intros p xk W Hi Hsub Hper. pose proof (wf_nk p W) as Hn.
  assert (HL : (length (pxk p) <= length xk)%nat) by (apply NoDup_incl_length; [apply incr_NoDup, W|exact Hsub]).
  unfold addknots, allknots. cbn [allknots_loop].
  destruct (allknots1_exact tol6 true (pxk p) xk tol6_pos (wf_inc p W) Hi Hn ltac:(lia)) as (same & zs & E & Hz & Hzl & Hin & Hsame).
  { apply separated_incl; auto. apply W. }
  assert (EZ : zs = xk).
  { apply incr_ext; auto. intros x. rewrite Hin. split; [intros [?|?]; auto|auto]. }
  subst zs. rewrite E. cbn [bind]. destruct same.
  - destruct (Hsame eq_refl) as (_ & EX). exists p. repeat (split; [auto|]); auto.
  - destruct (Nat.eqb_spec (length xk) (length (pxk p))) as [EL|NL].
    + exists p. split; [reflexivity|]. split; [auto|]. split; [apply incr_incl_len; auto; apply W|]. auto.
    + destruct (addknots_raw_ok p xk W Hi ltac:(lia) Hsub) as (r & Er & Wr & R1 & R2 & R3 & R4 & R5); [exact Hper|].
      assert (EX : pxk r = xk) by (unfold pxk; rewrite R2; reflexivity).
      exists r. split; [exact Er|]. split; [exact Wr|]. split; [exact EX|].
      split; [exact R1|]. split; [exact R3|]. split; [unfold pdeg; rewrite R4; reflexivity|].
      intros comp x Hb. rewrite !pw_call_wf by auto. f_equal. rewrite !pw_val_base, R5 by auto. f_equal.
      symmetry. apply reduce_ends; auto. rewrite EX. exact Hper.
Qed.
Example C45_case : exists r, addknots ex_p [0; 1/3; 1] = Ok r /\ pxk r = [0; 1/3; 1] /\ pw_call r [] (1/2) = Ok (1/2).
Proof.
  destruct (C45_addknots ex_p [0; 1/3; 1] ex_p_wf) as (r & E & W & X & _ & _ & _ & H).
  - intros [|[|i]] Hi; cbn in *; [lra|lra|lia].
  - intros y Hy. cbn in *. intuition.
  - discriminate.
  - exists r. split; [exact E|]. split; [exact X|]. rewrite H by constructor. apply C30_case.
Qed.
Print Assumptions C45_addknots.

(* allknots of two knot lists: sorted, the longer list entirely, nothing new,
   and every member of the shorter up to the tolerance *)
Theorem C46_allknots : forall (p : pwpoly R) (yk : list R) (tol : R),
  pw_wf p -> incr yk -> (1 <= length yk)%nat -> 0 <= tol ->
  exists same zk, allknots tol p [yk] = Ok (same, zk) /\ incr zk /\
    (forall x, In x zk -> In x (pxk p) \/ In x yk) /\
    ((length yk <= length (pxk p))%nat ->
       (forall x, In x (pxk p) -> In x zk) /\ (forall y, In y yk -> In y zk \/ close_to tol (pxk p) y)) /\
    ((length (pxk p) < length yk)%nat ->
       (forall y, In y yk -> In y zk) /\ (forall x, In x (pxk p) -> In x zk \/ close_to tol yk x)).
Proof.
  intros p yk tol W Hi Hl Ht. unfold allknots. cbn [allknots_loop].
  destruct (allknots1_spec tol true (pxk p) yk Ht (wf_inc p W) Hi (wf_nk p W) Hl)
    as (same & zs & E & Hz & _ & H1 & H2 & H3 & _).
  rewrite E. cbn [bind]. exists same, zs. split; [reflexivity|]. split; [auto|]. split; [auto|].
  unfold longer, shorter in *. destruct (Nat.ltb_spec (length (pxk p)) (length yk)); split; intros; try lia; auto.
Qed.
(* and the exact union of any number of lists of well separated knots *)
Theorem C46_allknots_exact : forall (p : pwpoly R) (yks : list (list R)) (tol : R),
  pw_wf p -> (forall yk, In yk yks -> incr yk /\ (1 <= length yk)%nat) -> 0 <= tol ->
  well_separated tol (pxk p ++ concat yks) ->
  exists same zk, allknots tol p yks = Ok (same, zk) /\ incr zk /\
    forall x, In x zk <-> In x (pxk p) \/ exists yk, In yk yks /\ In x yk.
Proof.
  intros p yks tol W Hy Ht Hs. unfold allknots.
  assert (G : forall yks same xk l, (forall yk, In yk yks -> incr yk /\ (1 <= length yk)%nat) ->
    incr xk -> (1 <= length xk)%nat -> well_separated tol l -> (forall x, In x xk -> In x l) ->
    (forall yk x, In yk yks -> In x yk -> In x l) ->
    exists s' zk, allknots_loop tol (same, xk) yks = Ok (s', zk) /\ incr zk /\
      forall x, In x zk <-> In x xk \/ exists yk, In yk yks /\ In x yk).
  { clear - Ht. intros yks. induction yks as [|yk yks IH]; intros same xk l Hy Hi Hl Hs H1 H2; cbn [allknots_loop].
    - exists same, xk. split; [reflexivity|]. split; [auto|]. intros x. split; [auto|]. intros [?|(? & [] & _)]; auto.
    - destruct (Hy yk (or_introl eq_refl)) as (Hyi & Hyl).
      destruct (allknots1_exact tol same xk yk Ht Hi Hyi Hl Hyl) as (s1 & z1 & E & Hz1 & Hz2 & Hz3 & _).
        * apply well_separated_separated. intros x y Hx Hy1 N.
          assert (HI : forall w, In w (xk ++ yk) -> In w l).
          { intros w Hw. apply in_app_iff in Hw. destruct Hw as [Hw|Hw]; [auto|]. apply (H2 yk w); [left; reflexivity|auto]. }
          destruct (Hs x y (HI _ Hx) (HI _ Hy1) N) as (A & B). split; auto.
        * rewrite E. cbn [bind].
          destruct (IH s1 z1 l) as (s' & zk & E2 & Hzi & Hz4); auto.
          -- intros y Hy1. apply Hy. right; auto.
          -- intros x Hx. apply Hz3 in Hx. destruct Hx as [Hx|Hx]; [auto|]. apply (H2 yk x); [left; reflexivity|auto].
          -- intros y x Hy1 Hx. apply (H2 y x); [right; auto|auto].
          -- exists s', zk. split; [exact E2|]. split; [exact Hzi|]. intros x. rewrite Hz4, Hz3. split.
             ++ intros [[?|?]|(y & Hy1 & Hx)]; [auto|right; exists yk; split; [left; auto|auto]|right; exists y; split; [right; auto|auto]].
             ++ intros [?|(y & [<-|Hy1] & Hx)]; auto. right. exists y; auto. }
  destruct (G yks true (pxk p) (pxk p ++ concat yks)) as (s' & zk & E & Hi & Hx); auto.
  - apply W.
  - apply W.
  - intros x Hx. apply in_app_iff; auto.
  - intros yk x H1 H2. apply in_app_iff. right. apply in_concat. exists yk; auto.
  - exists s', zk. auto.
Qed.
Example C46_case : exists same zk, allknots (1/1000000) ex_p [[1/2]] = Ok (same, zk) /\ zk = [0; 1/2; 1].
Proof.
  destruct (C46_allknots_exact ex_p [[1/2]] (1/1000000) ex_p_wf) as (same & zk & E & Hi & Hx).
  - intros yk [<-|[]]. split; [intros i Hi; cbn in Hi; lia|cbn; lia].
  - lra.
  - apply ex_compatible.
  - exists same, zk. split; [exact E|]. apply incr_ext; auto.
    + intros [|[|i]] Hl; cbn in *; [lra|lra|lia].
    + intros x. rewrite Hx. cbn. split.
      * intros [[?|[?|[]]]|(yk & [<-|[]] & [?|[]])]; auto.
      * intros [?|[?|[?|[]]]]; auto. right. exists [1/2]. cbn. auto.
Qed.
Print Assumptions C46_allknots.
Print Assumptions C46_allknots_exact.
