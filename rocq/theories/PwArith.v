(* binary operations (npplus/pwpoly.py:710-786): facts over the reals. *)
From Coq Require Import Reals List Arith Lia Lra ZArith Bool.
From Verif Require Import Num PyBase NdArray Poly SpecPoly PolyProofs PwPoly PwBase PwDeriv PwKnots.
Import ListNotations.
Local Open Scope R_scope.

(* ---- broadcasting ---- *)
Lemma brev_ones s d t : (length s + d <= length t)%nat -> brev (s ++ repeat 1%nat d) t = brev s t.
Proof.
  revert t; induction s as [|a s IH]; intros t H.
  - cbn [app]. revert t H; induction d as [|d IHd]; intros t H; [destruct t; reflexivity|].
    destruct t as [|b t]; [cbn in H; lia|]. cbn [repeat brev].
    assert (E : bdim 1 b = Some b).
    { unfold bdim. destruct (Nat.eqb_spec 1 b); [subst; reflexivity|]. reflexivity. }
    rewrite E, IHd by (cbn in H |- *; lia). reflexivity.
  - destruct t as [|b t]; [cbn in H; lia|]. cbn [app brev]. rewrite IH by (cbn in H; lia). reflexivity.
Qed.
Lemma repeat_rev {A} (a : A) n : rev (repeat a n) = repeat a n.
Proof.
  induction n as [|n IH]; [reflexivity|]. cbn [repeat rev]. rewrite IH.
  symmetry. apply repeat_cons.
Qed.
Lemma bshape_ones d s t : (d + length s <= length t)%nat -> bshape (repeat 1%nat d ++ s) t = bshape s t.
Proof.
  intros H. unfold bshape. rewrite rev_app_distr, repeat_rev, brev_ones; [reflexivity|].
  rewrite !rev_length. lia.
Qed.
Lemma brev_length s t u : brev s t = Some u -> length u = Nat.max (length s) (length t).
Proof.
  revert t u; induction s as [|a s IH]; intros t u H.
  - cbn in H. inversion H; subst. reflexivity.
  - destruct t as [|b t]; cbn [brev] in H; [inversion H; subst; cbn; lia|].
    destruct (bdim a b); [|discriminate]. destruct (brev s t) eqn:E; [|discriminate].
    inversion H; subst. cbn. rewrite (IH _ _ E). lia.
Qed.
Lemma bshape_length s t u : bshape s t = Some u -> length u = Nat.max (length s) (length t).
Proof.
  unfold bshape. destruct (brev (rev s) (rev t)) eqn:E; cbn; [|discriminate].
  intros H; inversion H; subst. rewrite rev_length, (brev_length _ _ _ E), !rev_length. reflexivity.
Qed.
Lemma bidx_length s idx : (length s <= length idx)%nat -> length (bidx s idx) = length s.
Proof. intros H. unfold bidx. rewrite zipw_length, skipn_length. lia. Qed.
Lemma nth_skipn' {A} n (l : list A) k d : nth k (skipn n l) d = nth (n + k) l d.
Proof.
  revert l; induction n as [|n IH]; intros l; [reflexivity|].
  destruct l as [|a l]; [destruct k; reflexivity|]. cbn. apply IH.
Qed.
Lemma bidx_nth s idx k : (length s <= length idx)%nat -> (k < length s)%nat ->
  nth k (bidx s idx) 0%nat =
  if (nth k s 0 =? 1)%nat then 0%nat else nth (length idx - length s + k) idx 0%nat.
Proof.
  intros H Hk. unfold bidx. rewrite (nth_zipw _ _ _ _ 0%nat 0%nat) by (rewrite ?skipn_length; lia).
  rewrite nth_skipn'. reflexivity.
Qed.
Lemma inb_of_nth idx s : length idx = length s ->
  (forall k, (k < length s)%nat -> (nth k idx 0 < nth k s 0)%nat) -> inb idx s.
Proof.
  revert s; induction idx as [|i idx IH]; intros [|d s] HL H; cbn in HL; try lia; constructor.
  - apply (H 0%nat). cbn; lia.
  - apply IH; [lia|]. intros k Hk. apply (H (S k)). cbn; lia.
Qed.
Lemma brev_nth s t u k : brev s t = Some u -> (k < length s)%nat ->
  nth k s 0%nat = nth k u 0%nat \/ nth k s 0%nat = 1%nat.
Proof.
  revert t u k; induction s as [|a s IH]; intros t u k H Hk; [cbn in Hk; lia|].
  destruct t as [|b t]; cbn [brev] in H; [inversion H; subst; auto|].
  destruct (bdim a b) as [d|] eqn:Ed; [|discriminate]. destruct (brev s t) as [r|] eqn:E; [|discriminate].
  inversion H; subst. destruct k as [|k]; cbn [nth].
  - unfold bdim in Ed. destruct (Nat.eqb_spec a b); [inversion Ed; auto|].
    destruct (Nat.eqb_spec a 1); [auto|]. destruct (b =? 1)%nat; inversion Ed; auto.
  - apply (IH t r); auto. cbn in Hk; lia.
Qed.
Lemma bidx_inb s t u comp : bshape s t = Some u -> inb comp u -> inb (bidx s comp) s.
Proof.
  intros H Hc. pose proof (bshape_length _ _ _ H) as HL. pose proof (inb_length _ _ Hc) as HLc.
  apply inb_of_nth; [apply bidx_length; lia|]. intros k Hk. rewrite bidx_nth by lia.
  unfold bshape in H. destruct (brev (rev s) (rev t)) as [v|] eqn:E; cbn in H; [|discriminate].
  inversion H; subst u. clear H. rewrite rev_length in *.
  pose proof (brev_nth _ _ _ (length s - 1 - k) E ltac:(rewrite rev_length; lia)) as Hn.
  rewrite rev_nth in Hn by lia. replace (length s - S (length s - 1 - k))%nat with k in Hn by lia.
  destruct (Nat.eqb_spec (nth k s 0%nat) 1) as [E1|N1]; [lia|].
  destruct Hn as [Hn|]; [|lia]. rewrite Hn.
  pose proof (inb_nth _ _ (length comp - length s + k) Hc ltac:(rewrite rev_length; lia)) as Hl.
  rewrite rev_nth in Hl by lia.
  replace (length v - S (length comp - length s + k))%nat with (length s - 1 - k)%nat in Hl by lia. exact Hl.
Qed.
Lemma bidx_inb_r s t u comp : bshape s t = Some u -> inb comp u -> inb (bidx t comp) t.
Proof. rewrite bshape_comm. apply bidx_inb. Qed.
Lemma bidx_ones d s comp : (d + length s <= length comp)%nat ->
  skipn d (bidx (repeat 1%nat d ++ s) comp) = bidx s comp.
Proof.
  intros H. apply (nth_ext _ _ 0%nat 0%nat).
  - rewrite skipn_length, !bidx_length; rewrite ?app_length, ?repeat_length; lia.
  - intros k Hk. rewrite skipn_length, bidx_length in Hk by (rewrite app_length, repeat_length; lia).
    rewrite app_length, repeat_length in Hk. rewrite nth_skipn'.
    rewrite !bidx_nth by (rewrite ?app_length, ?repeat_length; lia).
    rewrite app_nth2 by (rewrite repeat_length; lia). rewrite repeat_length.
    replace (d + k - d)%nat with k by lia. rewrite app_length, repeat_length.
    destruct (_ =? 1)%nat; auto. f_equal. lia.
Qed.

(* ---- products of coefficient lists ---- *)
Lemma addto_length i c (prod : list R) : length (addto i c prod) = length prod.
Proof.
  revert c prod; induction i as [|i IH]; intros c prod.
  - revert prod; induction c as [|a c IHc]; intros [|b prod]; cbn [addto length]; auto.
  - destruct prod as [|b prod]; cbn [addto length]; auto.
Qed.
Lemma addto_peval i c prod x : (i + length c <= length prod)%nat ->
  peval (addto i c prod) x = peval prod x + x ^ i * peval c x.
Proof.
  revert c prod; induction i as [|i IH]; intros c prod H.
  - cbn [pow]. revert prod H; induction c as [|a c IHc]; intros prod H.
    + destruct prod; cbn [addto]; rewrite peval_nil; ring.
    + destruct prod as [|b prod]; [cbn in H; lia|]. cbn [addto]. numR. rewrite !peval_cons.
      rewrite IHc by (cbn in H |- *; lia). ring.
  - destruct prod as [|b prod]; [cbn in H; lia|]. cbn [addto]. rewrite !peval_cons.
    rewrite IH by (cbn in H; lia). cbn [pow]. ring.
Qed.
Lemma peval_scale c d x : peval (map (fun a => a * d) c) x = d * peval c x.
Proof. induction c as [|a c IH]; cbn [map]; rewrite ?peval_nil, ?peval_cons, ?IH; ring. Qed.
Lemma pmul_loop_ok i c other prod x : (i + length c + length other <= S (length prod))%nat ->
  length (pmul_loop i c other prod) = length prod /\
  peval (pmul_loop i c other prod) x = peval prod x + x ^ i * (peval c x * peval other x).
Proof.
  revert i prod; induction other as [|d r IH]; intros i prod H; cbn [pmul_loop].
  - rewrite peval_nil. split; [reflexivity|ring].
  - numR. cbn in H. destruct (IH (S i) (addto i (map (fun a => a * d) c) prod)) as (A & B).
    + rewrite addto_length. lia.
    + rewrite A, B, addto_length, addto_peval by (rewrite map_length; lia).
      split; [reflexivity|]. rewrite peval_scale, peval_cons. cbn [pow]. ring.
Qed.
Lemma pmul_col_length (a b : list R) : (1 <= length a)%nat -> (1 <= length b)%nat ->
  length (pmul_col a b) = (length a + length b - 1)%nat.
Proof.
  intros H1 H2. unfold pmul_col.
  destruct (pmul_loop_ok 0 a b (repeat n0 (length a + length b - 1)) 0) as (A & _).
  - rewrite repeat_length. lia.
  - rewrite A, repeat_length. reflexivity.
Qed.
Lemma pmul_col_peval a b x : (1 <= length a)%nat -> (1 <= length b)%nat ->
  peval (pmul_col a b) x = peval a x * peval b x.
Proof.
  intros H1 H2. unfold pmul_col.
  destruct (pmul_loop_ok 0 a b (repeat n0 (length a + length b - 1)) x) as (_ & B).
  - rewrite repeat_length. lia.
  - rewrite B. numR. rewrite peval_zeros. cbn [pow]. ring.
Qed.
Lemma zipw_peval (s : R) (f : R -> R -> R) a b x : (forall u v, f u v = u + s * v) -> length a = length b ->
  peval (zipw f a b) x = peval a x + s * peval b x.
Proof.
  intros Hf. revert b; induction a as [|u a IH]; intros [|v b] H; cbn in H; try lia; cbn [zipw].
  - rewrite peval_nil. ring.
  - rewrite !peval_cons, IH, Hf by lia. ring.
Qed.

(* ---- the function of a padded or reshaped operand ---- *)
Lemma peval_pad c n x : peval (c ++ repeat 0 n) x = peval c x.
Proof. rewrite peval_app, peval_zeros. ring. Qed.
Lemma pshift_pad c n d : c <> [] -> pshift (c ++ repeat 0 n) d = pshift c d ++ repeat 0 n.
Proof.
  intros H. assert (H2 : c ++ repeat 0 n <> []) by (destruct c; [congruence|discriminate]).
  apply peval_inj.
  - rewrite pshift_length by auto. rewrite !app_length, pshift_length by auto. reflexivity.
  - intros x. rewrite pshift_peval by auto. rewrite !peval_pad, pshift_peval by auto. reflexivity.
Qed.

(* q evaluates like p, with d leading unit component axes, n coefficients and knots xk *)
Record like (p q : pwpoly R) (d n : nat) (xk : list R) : Prop := {
  lk_wf : pw_wf q;
  lk_cl : pcl q = pcl p;
  lk_sh : csh (pc q) = repeat 1%nat d ++ csh (pc p);
  lk_cn : cn (pc q) = n;
  lk_xk0 : pxk0 q = nth 0 xk 0 :: xk;
  lk_base : forall comp x, inb comp (csh (pc q)) -> base q comp x = base p (skipn d comp) x
}.
Lemma pxk0_eq p : pw_wf p -> pxk0 p = nth 0 (pxk p) 0 :: pxk p.
Proof.
  intros W. pose proof (pxk_length p W) as HL. pose proof (wf_first p W) as HF. unfold pxk in *.
  destruct (pxk0 p) as [|a l]; cbn in *; [lia|]. rewrite HF. reflexivity.
Qed.
Lemma like_refl p : pw_wf p -> like p p 0 (cn (pc p)) (pxk p).
Proof. intros W. split; auto. apply pxk0_eq; auto. Qed.
Lemma like_trans_pad p q d n n' xk : like p q d n xk -> (n <= n')%nat -> exists r,
  new (pcl p) (pxk0 q) (cpad n' (pc q)) = Ok r /\ like p r d n' xk.
Proof.
  intros [W Hcl Hs Hc Hx Hb] Hn. pose proof (cwf_n _ (wf_c q W)).
  assert (NE : forall comp i, inb comp (csh (pc q)) -> (i < ck (pc q))%nat -> ccol (pc q) comp i <> [])
    by (intros; apply wf_col_nonempty; auto).
  assert (CW : carr_wf (cpad n' (pc q))).
  { split; [cbn; lia|]. intros comp i Hc1 Hi. cbn in *. rewrite app_length, repeat_length.
    rewrite (cwf_col _ (wf_c q W)) by auto. lia. }
  destruct (rawinit_ok (pcl p) (pxk0 q) (cpad n' (pc q))) as (r & E & Wr & R1 & R2 & R3 & R4 & R5 & R6); auto.
  - apply W.
  - apply W.
  - apply W.
  - apply W.
  - intros EP. rewrite <- Hcl in EP. destruct (wf_per q W EP) as (P1 & P2 & P3). split; auto.
    intros comp Hc1. cbn in *. destruct (P3 comp Hc1) as (Q0 & Q1). rewrite Q0, Q1. split; [reflexivity|].
    symmetry. apply pshift_pad. apply NE; auto. pose proof (ck_eq q W). lia.
  - exists r. split; [exact E|]. cbn in R3, R4, R5, R6. split; auto; try congruence.
    intros comp x Hc1. rewrite R3 in Hc1. rewrite <- Hb by auto. unfold base.
    replace (pxk r) with (pxk q) by (unfold pxk; congruence). rewrite R2.
    rewrite R6 by (auto; apply piece_lt; auto). numR. apply peval_pad.
Qed.
Lemma like_trans_dims p q n xk d : like p q 0 n xk -> exists r,
  new (pcl p) (pxk0 q) (cdims d (pc q)) = Ok r /\ like p r d n xk.
Proof.
  intros [W Hcl Hs Hc Hx Hb]. cbn [repeat app] in Hs.
  assert (IB : forall comp, inb comp (repeat 1%nat d ++ csh (pc q)) -> inb (skipn d comp) (csh (pc q))).
  { induction d as [|d IH]; intros comp H; [exact H|]. inversion H; subst. cbn. apply IH; auto. }
  assert (CW : carr_wf (cdims d (pc q))).
  { split; [apply (wf_c q W)|]. intros comp i Hc1 Hi. cbn in *. apply (wf_c q W); auto. }
  destruct (rawinit_ok (pcl p) (pxk0 q) (cdims d (pc q))) as (r & E & Wr & R1 & R2 & R3 & R4 & R5 & R6); auto.
  - apply W.
  - apply W.
  - apply W.
  - apply W.
  - intros EP. rewrite <- Hcl in EP. destruct (wf_per q W EP) as (P1 & P2 & P3). split; auto.
    intros comp Hc1. cbn in *. apply P3; auto.
  - exists r. split; [exact E|]. cbn in R3, R4, R5, R6. split; auto; try congruence.
    intros comp x Hc1. rewrite R3 in Hc1.
    transitivity (base q (skipn d comp) x); [|rewrite Hb by auto; reflexivity].
    unfold base. replace (pxk r) with (pxk q) by (unfold pxk; congruence). rewrite R2.
    rewrite R6 by (auto; apply piece_lt; auto). reflexivity.
Qed.
Lemma like_knots p q d n xk zk : like p q d n xk -> incr zk -> (1 <= length zk)%nat ->
  (forall y, In y xk -> In y zk) -> (pcl p = Per -> same_ends xk zk) ->
  exists r, addknots_raw q zk = Ok r /\ like p r d n zk.
Proof.
  intros [W Hcl Hs Hc Hx Hb] Hi Hl Hin Hp.
  assert (EX : pxk q = xk) by (unfold pxk; rewrite Hx; reflexivity).
  destruct (addknots_raw_ok q zk W Hi Hl) as (r & E & Wr & R1 & R2 & R3 & R4 & R5).
  - rewrite EX; auto.
  - rewrite EX. intros EP; apply Hp; congruence.
  - exists r. split; [exact E|]. split; auto; try congruence.
    intros comp x Hc1. rewrite R3 in Hc1. rewrite R5, Hb by auto. reflexivity.
Qed.

(* conditions on the operands *)
Record operands (p q : pwpoly R) : Prop := {
  op_wfp : pw_wf p;
  op_wfq : pw_wf q;
  op_cl : pcl q = pcl p;
  op_per : pcl p = Per -> same_ends (pxk p) (pxk q);
  op_sep : separated tol6 (pxk p) (pxk q)
}.
Lemma tol6_pos : 0 <= @tol6 R _.
Proof. unfold tol6. numR. lra. Qed.

Lemma binary_ok p q skip : operands p q ->
  exists this q' zk,
    binary p q skip = Ok (this, pc q') /\
    like p this (length (csh (pc q)) - length (csh (pc p))) (if skip then cn (pc p) else Nat.max (cn (pc p)) (cn (pc q))) zk /\
    like q q' (length (csh (pc p)) - length (csh (pc q))) (if skip then cn (pc q) else Nat.max (cn (pc p)) (cn (pc q))) zk /\
    incr zk /\ (forall x, In x zk <-> In x (pxk p) \/ In x (pxk q)) /\ (pcl p = Per -> same_ends (pxk p) zk).
Proof.
  intros [Wp Wq Hcl Hper Hsep]. unfold binary.
  set (nd := Nat.max (cn (pc p)) (cn (pc q))).
  set (la0 := length (csh (pc p))). set (lb0 := length (csh (pc q))).
  (* padding *)
  assert (P1 : exists p1, (if negb skip && negb (cn (pc p) =? nd)%nat then new (pcl p) (pxk0 p) (cpad nd (pc p)) else Ok p) = Ok p1
     /\ like p p1 0 (if skip then cn (pc p) else nd) (pxk p)).
  { destruct skip; cbn [negb andb].
    - exists p. split; auto. apply like_refl; auto.
    - destruct (Nat.eqb_spec (cn (pc p)) nd) as [E|N]; cbn [negb].
      + exists p. split; auto. rewrite <- E. apply like_refl; auto.
      + destruct (like_trans_pad p p 0 _ nd _ (like_refl p Wp)) as (r & E & L); [lia|]. exists r; auto. }
  assert (Q1 : exists q1, (if negb skip && negb (cn (pc q) =? nd)%nat then new (pcl p) (pxk0 q) (cpad nd (pc q)) else Ok q) = Ok q1
     /\ like q q1 0 (if skip then cn (pc q) else nd) (pxk q)).
  { rewrite <- Hcl. destruct skip; cbn [negb andb].
    - exists q. split; auto. apply like_refl; auto.
    - destruct (Nat.eqb_spec (cn (pc q)) nd) as [E|N]; cbn [negb].
      + exists q. split; auto. rewrite <- E. apply like_refl; auto.
      + destruct (like_trans_pad q q 0 _ nd _ (like_refl q Wq)) as (r & E & L); [lia|]. exists r; auto. }
  destruct P1 as (p1 & -> & LP1). destruct Q1 as (q1 & -> & LQ1). cbn [bind].
  assert (Ea : length (csh (pc p1)) = la0) by (rewrite (lk_sh _ _ _ _ _ LP1); reflexivity).
  assert (Eb : length (csh (pc q1)) = lb0) by (rewrite (lk_sh _ _ _ _ _ LQ1); reflexivity).
  rewrite Ea, Eb.
  set (np := if skip then cn (pc p) else nd) in *. set (nq := if skip then cn (pc q) else nd) in *.
  assert (P2 : exists p2, (if (la0 <? lb0)%nat then new (pcl p) (pxk0 p1) (cdims (lb0 - la0) (pc p1)) else Ok p1) = Ok p2
     /\ like p p2 (lb0 - la0) np (pxk p)).
  { destruct (Nat.ltb_spec la0 lb0) as [L|L].
    - apply like_trans_dims; auto.
    - exists p1. replace (lb0 - la0)%nat with 0%nat by lia. auto. }
  assert (Q2 : exists q2, (if (lb0 <? la0)%nat then new (pcl p) (pxk0 q1) (cdims (la0 - lb0) (pc q1)) else Ok q1) = Ok q2
     /\ like q q2 (la0 - lb0) nq (pxk q)).
  { rewrite <- Hcl. destruct (Nat.ltb_spec lb0 la0) as [L|L].
    - apply like_trans_dims; auto.
    - exists q1. replace (la0 - lb0)%nat with 0%nat by lia. auto. }
  destruct P2 as (p2 & -> & LP2). destruct Q2 as (q2 & -> & LQ2). cbn [bind].
  assert (EXp : pxk p2 = pxk p) by (unfold pxk at 1; rewrite (lk_xk0 _ _ _ _ _ LP2); reflexivity).
  assert (EXq : pxk q2 = pxk q) by (unfold pxk at 1; rewrite (lk_xk0 _ _ _ _ _ LQ2); reflexivity).
  unfold allknots. cbn [allknots_loop]. rewrite EXp, EXq.
  destruct (allknots1_exact tol6 true (pxk p) (pxk q) tol6_pos (wf_inc p Wp) (wf_inc q Wq) (wf_nk p Wp) (wf_nk q Wq) Hsep)
    as (same & zk & E & Hi & Hl & Hin & Hsame).
  rewrite E. cbn [bind].
  assert (HE : pcl p = Per -> same_ends (pxk p) zk /\ same_ends (pxk q) zk).
  { intros EP. destruct (Hper EP) as (E0 & E1).
    assert (HF : forall l, incr l -> (1 <= length l)%nat -> forall y, In y l -> nth 0 l 0 <= y <= nth (length l - 1) l 0).
    { intros l Hil Hll y Hy. destruct (In_nth _ _ 0 Hy) as (i & Hi2 & <-). split; apply incr_le; auto; lia. }
    pose proof (HF _ (wf_inc p Wp) (wf_nk p Wp)) as Fp. pose proof (HF _ (wf_inc q Wq) (wf_nk q Wq)) as Fq.
    pose proof (HF _ Hi Hl) as Fz. pose proof (wf_nk p Wp). pose proof (wf_nk q Wq).
    assert (A0 : nth 0 (pxk p) 0 = nth 0 zk 0).
    { apply Rle_antisym.
      - assert (In (nth 0 zk 0) zk) as Hz by (apply nth_In; lia). apply Hin in Hz. destruct Hz as [Hz|Hz].
        + apply Fp; auto. + rewrite E0. apply Fq; auto.
      - apply Fz. apply Hin. left. apply nth_In. lia. }
    assert (A1 : nth (length (pxk p) - 1) (pxk p) 0 = nth (length zk - 1) zk 0).
    { apply Rle_antisym.
      - apply Fz. apply Hin. left. apply nth_In. lia.
      - assert (In (nth (length zk - 1) zk 0) zk) as Hz by (apply nth_In; lia). apply Hin in Hz. destruct Hz as [Hz|Hz].
        + apply Fp; auto. + rewrite E1. apply Fq; auto. }
    split; split; congruence. }
  destruct same.
  - destruct (Hsame eq_refl) as (_ & ->).
    assert (EQ : pxk q = pxk p).
    { (* same knots: otherwise the union would differ *)
      apply incr_ext; [apply Wq|apply Wp|]. intros x; split; intros Hx; [apply Hin; auto|].
      unfold allknots1 in E. destruct (eqlist (pxk p) (pxk q)) eqn:EE.
      - apply eqlist_eq in EE. rewrite <- EE; auto.
      - exfalso. destruct (length (pxk p) <? length (pxk q))%nat eqn:EL.
        + apply Nat.ltb_lt in EL. destruct (1 <? length (pxk q))%nat eqn:E1; [discriminate|].
          apply Nat.ltb_ge in E1. pose proof (wf_nk p Wp). lia.
        + destruct (1 <? length (pxk p))%nat eqn:E1; [discriminate|]. apply Nat.ltb_ge in E1, EL.
          pose proof (wf_nk p Wp). pose proof (wf_nk q Wq). apply eqlist_neq in EE. apply EE.
          symmetry. apply incr_incl_len; [apply Wq|apply Wp| |lia]. intros y Hy. apply Hin; auto. }
    exists p2, q2, (pxk p). split; [reflexivity|]. split; [exact LP2|]. split; [rewrite <- EQ at 1; exact LQ2|].
    split; [apply Wp|]. split; [exact Hin|]. intros EP; apply HE; auto.
  - destruct (like_knots p p2 _ _ _ zk LP2 Hi Hl) as (p3 & E3 & LP3).
    { intros y Hy. apply Hin; auto. } { intros EP; apply HE; auto. }
    destruct (like_knots q q2 _ _ _ zk LQ2 Hi Hl) as (q3 & E4 & LQ3).
    { intros y Hy. apply Hin; auto. } { intros EP; apply HE; congruence. }
    rewrite E3, E4. cbn [bind]. exists p3, q3, zk. split; [reflexivity|].
    split; [exact LP3|]. split; [exact LQ3|]. split; [exact Hi|]. split; [exact Hin|]. intros EP; apply HE; auto.
Qed.

(* elementwise combination of the two operands *)
Lemma combine_ok p this q q' zk n np nq f (op : R -> R -> R) s :
  like p this (length (csh (pc q)) - length (csh (pc p))) np zk ->
  like q q' (length (csh (pc p)) - length (csh (pc q))) nq zk ->
  pcl q = pcl p -> (1 <= n)%nat -> (1 <= np)%nat -> (1 <= nq)%nat ->
  (forall a b, length a = np -> length b = nq -> length (f a b) = n /\ forall x, peval (f a b) x = op (peval a x) (peval b x)) ->
  bshape (csh (pc p)) (csh (pc q)) = Some s ->
  exists c r, cmap2 n f (pc this) (pc q') = Ok c /\ new (pcl p) (pxk0 this) c = Ok r /\ pw_wf r /\ pcl r = pcl p /\
    pxk r = zk /\ csh (pc r) = s /\ cn (pc r) = n /\
    forall comp x, inb comp s ->
      base r comp x = op (base p (bidx (csh (pc p)) comp) x) (base q (bidx (csh (pc q)) comp) x).
Proof.
  intros LP LQ Hcl Hn Hnp Hnq Hf Hs.
  set (sp := csh (pc p)) in *. set (sq := csh (pc q)) in *.
  destruct LP as [Wp Cp Sp Np Xp Bp]. destruct LQ as [Wq Cq Sq Nq Xq Bq]. fold sp in Sp. fold sq in Sq.
  assert (HB : bshape (csh (pc this)) (csh (pc q')) = Some s).
  { rewrite Sp, Sq. destruct (le_lt_dec (length sp) (length sq)) as [L|L].
    - replace (length sp - length sq)%nat with 0%nat by lia. cbn [repeat app].
      rewrite bshape_ones by lia. exact Hs.
    - replace (length sq - length sp)%nat with 0%nat by lia. cbn [repeat app].
      rewrite bshape_comm, bshape_ones by lia. rewrite bshape_comm. exact Hs. }
  assert (HK : ck (pc this) = ck (pc q')).
  { rewrite <- (wf_len _ Wp), <- (wf_len _ Wq), Xp, Xq. reflexivity. }
  unfold cmap2. rewrite HB, HK, Nat.eqb_refl.
  set (c := CArr _ _ _ _). exists c.
  assert (IBp : forall comp, inb comp s -> inb (bidx (csh (pc this)) comp) (csh (pc this)))
    by (intros comp Hc; eapply bidx_inb; eauto).
  assert (IBq : forall comp, inb comp s -> inb (bidx (csh (pc q')) comp) (csh (pc q')))
    by (intros comp Hc; eapply bidx_inb_r; eauto).
  assert (Lp : forall comp i, inb comp s -> (i < ck (pc q'))%nat -> length (ccol (pc this) (bidx (csh (pc this)) comp) i) = np)
    by (intros; rewrite <- Np; apply (wf_c _ Wp); auto; rewrite HK; auto).
  assert (Lq : forall comp i, inb comp s -> (i < ck (pc q'))%nat -> length (ccol (pc q') (bidx (csh (pc q')) comp) i) = nq)
    by (intros; rewrite <- Nq; apply (wf_c _ Wq); auto).
  assert (CW : carr_wf c).
  { split; [exact Hn|]. intros comp i Hc Hi. cbn in *. apply Hf; auto. }
  destruct (rawinit_ok (pcl p) (pxk0 this) c) as (r & E & Wr & R1 & R2 & R3 & R4 & R5 & R6); auto.
  - cbn. rewrite <- HK. apply Wp.
  - apply Wp.
  - apply Wp.
  - apply Wp.
  - intros EP. assert (EPp : pcl this = Per) by congruence. assert (EPq : pcl q' = Per) by congruence.
    destruct (wf_per _ Wp EPp) as (P1 & P2 & P3). destruct (wf_per _ Wq EPq) as (_ & _ & Q3). split; auto.
    intros comp Hc. cbn [c csh] in Hc. destruct (P3 _ (IBp comp Hc)) as (A0 & A1). destruct (Q3 _ (IBq comp Hc)) as (B0 & B1).
    pose proof (ck_eq _ Wq) as CK. pose proof (wf_nk _ Wq).
    assert (EX : pxk this = pxk q') by (unfold pxk; congruence).
    cbn [c ccol ck]. split; [congruence|]. rewrite HK in A1. rewrite A1, B1.
    rewrite <- EX. fold (pxk this).
    set (dx := nth _ (pxk this) 0 - nth _ (pxk this) 0).
    set (a := ccol (pc this) _ _). set (b := ccol (pc q') _ _).
    assert (La : length a = np) by (apply Lp; auto; lia). assert (Lb : length b = nq) by (apply Lq; auto; lia).
    assert (NA : a <> []) by (intros E; rewrite E in La; cbn in La; lia).
    assert (NB : b <> []) by (intros E; rewrite E in Lb; cbn in Lb; lia).
    assert (NF : f a b <> []).
    { intros E. destruct (Hf a b La Lb) as (F & _). rewrite E in F. cbn in F. lia. }
    apply peval_inj.
    + rewrite pshift_length by auto. rewrite (proj1 (Hf a b La Lb)). apply Hf; rewrite pshift_length; auto.
    + intros x. rewrite pshift_peval by auto.
      rewrite (proj2 (Hf (pshift a dx) (pshift b dx) ltac:(rewrite pshift_length; auto) ltac:(rewrite pshift_length; auto))).
      rewrite (proj2 (Hf a b La Lb)). rewrite !pshift_peval by auto. reflexivity.
  - exists r. split; [reflexivity|]. split; [exact E|]. split; [exact Wr|]. split; [exact R1|].
    split; [unfold pxk; rewrite R2, Xp; reflexivity|]. split; [exact R3|]. split; [exact R5|].
    intros comp x Hc.
    assert (Hlen : length comp = Nat.max (length sp) (length sq))
      by (rewrite (inb_length _ _ Hc); apply bshape_length; exact Hs).
    assert (Ep : base p (bidx sp comp) x = base this (bidx (csh (pc this)) comp) x).
    { rewrite Bp by auto. rewrite Sp, bidx_ones by lia. reflexivity. }
    assert (Eq : base q (bidx sq comp) x = base q' (bidx (csh (pc q')) comp) x).
    { rewrite Bq by auto. rewrite Sq, bidx_ones by lia. reflexivity. }
    rewrite Ep, Eq. unfold base.
    assert (EX : pxk this = pxk q') by (unfold pxk; congruence).
    replace (pxk r) with (pxk q') by (unfold pxk; congruence). rewrite EX, R2.
    replace (pxk0 q') with (pxk0 this) by congruence.
    assert (Hi : (ssearch (pxk q') x < ck (pc q'))%nat) by (apply piece_lt; auto).
    rewrite R6 by (cbn; auto). cbn [c ccol]. rewrite (proj2 (Hf _ _ (Lp _ _ Hc Hi) (Lq _ _ Hc Hi))). reflexivity.
Qed.

(* period reduction only depends on the end knots *)
Lemma reduce_ends p q x : pw_wf p -> pw_wf q -> pcl p = pcl q -> (pcl p = Per -> same_ends (pxk p) (pxk q)) ->
  pw_reduce p x = pw_reduce q x.
Proof.
  intros Wp Wq Hc Hx. unfold pw_reduce. rewrite <- Hc. destruct (pcl p) eqn:E; [reflexivity|].
  destruct (Hx eq_refl) as (E0 & E1).
  destruct (wf_per p Wp E) as (_ & -> & _). destruct (wf_per q Wq) as (_ & -> & _); [congruence|].
  numR. rewrite E0, E1. reflexivity.
Qed.

(* the result of a binary operation *)
Record pointwise (op : R -> R -> R) (p q r : pwpoly R) (s : list nat) : Prop := {
  pt_wf : pw_wf r;
  pt_cl : pcl r = pcl p;
  pt_sh : pshape r = s;
  pt_knots : forall x, In x (pxk r) <-> In x (pxk p) \/ In x (pxk q);
  pt_val : forall comp x, inb comp s ->
    pw_val r comp x = op (pw_val p (bidx (pshape p) comp) x) (pw_val q (bidx (pshape q) comp) x)
}.
Lemma pointwise_intro op p q r s zk : operands p q ->
  (pcl p = Per -> same_ends (pxk p) zk) -> (forall x, In x zk <-> In x (pxk p) \/ In x (pxk q)) ->
  pw_wf r -> pcl r = pcl p -> pxk r = zk -> csh (pc r) = s ->
  (forall comp x, inb comp s ->
      base r comp x = op (base p (bidx (csh (pc p)) comp) x) (base q (bidx (csh (pc q)) comp) x)) ->
  pointwise op p q r s.
Proof.
  intros [Wp Wq Hcl Hper _] HE Hin Wr R1 R2 R3 HB. split; auto.
  - rewrite R2. exact Hin.
  - intros comp x Hc. rewrite !pw_val_base.
    assert (E1 : pw_reduce p x = pw_reduce r x)
      by (apply reduce_ends; auto; intros EP; rewrite R2; auto).
    assert (E2 : pw_reduce q x = pw_reduce r x).
    { rewrite <- E1. symmetry. apply reduce_ends; auto. }
    rewrite E1, E2. apply HB; auto.
Qed.

Lemma addsub_ok p q (f : R -> R -> R) (sg : R) s : operands p q -> (forall u v, f u v = u + sg * v) ->
  bshape (csh (pc p)) (csh (pc q)) = Some s ->
  exists r, (let! (this, other) := binary p q false in
             let! c := cmap2 (cn (pc this)) (zipw f) (pc this) other in
             new (pcl p) (pxk0 this) c)%res = Ok r /\
    pointwise f p q r s /\ pdeg r = Nat.max (pdeg p) (pdeg q).
Proof.
  intros O Hf Hs. destruct (binary_ok p q false O) as (this & q' & zk & E & LP & LQ & Hi & Hin & HE).
  pose proof (cwf_n _ (wf_c _ (op_wfp _ _ O))). pose proof (cwf_n _ (wf_c _ (op_wfq _ _ O))).
  rewrite E. cbn [bind]. set (n := Nat.max (cn (pc p)) (cn (pc q))) in *.
  rewrite (lk_cn _ _ _ _ _ LP).
  destruct (combine_ok p this q q' zk n n n (zipw f) f s LP LQ) as (c & r & E1 & E2 & Wr & R1 & R2 & R3 & R4 & R5); auto; try lia.
  - apply O.
  - intros a b La Lb. split; [rewrite zipw_length; lia|]. intros x.
    rewrite (zipw_peval sg f a b x Hf), Hf by congruence. reflexivity.
  - rewrite E1. cbn [bind]. exists r. split; [exact E2|]. split.
    + eapply pointwise_intro; eauto.
    + unfold pdeg. rewrite R4. lia.
Qed.

Lemma cmap2_swap n f (a b : carr R) : cmap2 n f b a = cmap2 n (fun x y => f y x) a b.
Proof.
  unfold cmap2. rewrite (bshape_comm (csh b)). destruct (bshape (csh a) (csh b)); [|reflexivity].
  rewrite Nat.eqb_sym. destruct (Nat.eqb_spec (ck a) (ck b)) as [E|]; [rewrite E|]; reflexivity.
Qed.
Lemma pmul_ok p q s : operands p q -> bshape (csh (pc p)) (csh (pc q)) = Some s ->
  exists r, pmul p q = Ok r /\ pointwise Rmult p q r s /\ pdeg r = (pdeg p + pdeg q)%nat.
Proof.
  intros O Hs. destruct (binary_ok p q true O) as (this & q' & zk & E & LP & LQ & Hi & Hin & HE).
  pose proof (cwf_n _ (wf_c _ (op_wfp _ _ O))). pose proof (cwf_n _ (wf_c _ (op_wfq _ _ O))).
  unfold pmul. rewrite E. cbn [bind].
  rewrite (lk_cn _ _ _ _ _ LP), (lk_cn _ _ _ _ _ LQ).
  set (np := cn (pc p)) in *. set (nq := cn (pc q)) in *.
  set (n := (np + nq - 1)%nat).
  set (f := if (np <? nq)%nat then (fun x y => pmul_col y x) else @pmul_col R _).
  assert (EC : (let '(a, b) := if (np <? nq)%nat then (pc q', pc this) else (pc this, pc q') in
     (let! r := cmap2 (cn a + cn b - 1) pmul_col a b in new (pcl p) (pxk0 this) r)%res)
    = (let! r := cmap2 n f (pc this) (pc q') in new (pcl p) (pxk0 this) r)%res).
  { unfold f. destruct (Nat.ltb_spec np nq).
    - rewrite (lk_cn _ _ _ _ _ LP), (lk_cn _ _ _ _ _ LQ). fold np nq.
      replace (nq + np - 1)%nat with n by lia. rewrite cmap2_swap. reflexivity.
    - rewrite (lk_cn _ _ _ _ _ LP), (lk_cn _ _ _ _ _ LQ). reflexivity. }
  rewrite EC.
  destruct (combine_ok p this q q' zk n np nq f Rmult s LP LQ) as (c & r & E1 & E2 & Wr & R1 & R2 & R3 & R4 & R5); auto; try lia.
  - apply O.
  - intros a b La Lb. unfold f. destruct (np <? nq)%nat.
    + split; [rewrite pmul_col_length by lia; lia|]. intros x. rewrite pmul_col_peval by lia. ring.
    + split; [rewrite pmul_col_length by lia; lia|]. intros x. rewrite pmul_col_peval by lia. ring.
  - rewrite E1. cbn [bind]. exists r. split; [exact E2|]. split.
    + eapply pointwise_intro; eauto.
    + unfold pdeg. rewrite R4. fold np nq. lia.
Qed.
