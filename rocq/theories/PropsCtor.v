(* C36-C40, C48: the PwPoly constructor and reknot (npplus/pwpoly.py:181-296,
   548-591).  numpy.linalg.inv is a parameter inv n m; the only thing assumed of
   it (inv_spec) is that it returns a right inverse of every n x n matrix that
   has one.  That the matrix the constructor inverts has one is proved, for
   every degree. *)
From Coq Require Import Reals List Arith Lia Lra ZArith Bool ClassicalEpsilon.
From Verif Require Import PropsPw Num PyBase NdArray Poly SpecPoly PolyProofs PwPoly PwBase PwDeriv PwInteg PwCtor.
Import ListNotations.
Local Open Scope R_scope.

(* g lists f and its first h derivatives, the last one continuous: f is C^h *)
Definition derivs_upto (h : nat) (f : R -> R) (g : nat -> R -> R) : Prop :=
  (forall x, g 0%nat x = f x) /\
  (forall k x, (k < h)%nat -> derivable_pt_lim (g k) x (g (S k) x)) /\
  (forall k x, (k <= h)%nat -> continuity_pt (g k) x).
(* Taylor polynomial of degree h with derivatives d 0 .. d h *)
Definition taylor_poly (d : nat -> R) (h : nat) (t : R) : R :=
  sum_f_R0 (fun k => d k / INR (fact k) * t ^ k) h.
(* f is on the interval a < x <= b a polynomial with n coefficients, whose k-th
   derivatives are (l k) at a and (r k) at b for k <= h *)
Definition hermite (f : R -> res R) (a b : R) (n h : nat) (l r : nat -> R) : Prop :=
  exists c, length c = n /\ (forall x, a < x <= b -> f x = Ok (peval c (x - a))) /\
    forall k, (k <= h)%nat ->
      nderiv_at k (fun x => peval c (x - a)) a (l k) /\
      nderiv_at k (fun x => peval c (x - a)) b (r k).

(* an inverse exists, so inv_spec can be met *)
Definition inv_wit (n : nat) (M : nat -> nat -> R) : nat -> nat -> R :=
  epsilon (inhabits (fun _ _ => 0)) (right_inverse n M).
Example inv_spec_nonvacuous : inv_spec inv_wit.
Proof. intros n M N H. apply (epsilon_spec (inhabits (fun _ _ => 0)) (right_inverse n M)). exists N; exact H. Qed.

Lemma peval_seq (f : nat -> R) h m t :
  peval (map f (seq 0 (S h)) ++ repeat 0 m) t = sum_f_R0 (fun k => f k * t ^ k) h.
Proof.
  rewrite peval_app, peval_zeros, Rmult_0_r, Rplus_0_r. induction h as [|h IH].
  - unfold peval; cbn. ring.
  - rewrite seq_S, map_app, peval_app, IH. cbn [sum_f_R0 map]. rewrite map_length, seq_length.
    unfold peval at 1. cbn. ring.
Qed.
Lemma interval_piece xk i x : incr xk -> (S i < length xk)%nat ->
  nth i xk 0 < x <= nth (S i) xk 0 -> in_piece xk (S i) x.
Proof.
  intros H Hi Hx. split; [lia|]. split; intros j Hj.
  - apply Rle_lt_trans with (nth i xk 0); [apply incr_le; auto; lia|lra].
  - apply Rle_trans with (nth (S i) xk 0); [lra|apply incr_le; auto; lia].
Qed.

Section Facts.
  Variables (r : pwpoly R) (args : list (yarr R)) (xk : list R) (h : nat) (comp : list nat).
  Hypothesis W : pw_wf r.
  Hypothesis HP : pcl r = Pw.
  Hypothesis Hx : pxk r = xk.
  Hypothesis Hn : (2 <= length xk)%nat.
  Hypothesis Hb : inb comp (csh (pc r)).
  Hypothesis Hcn : (S h <= cn (pc r))%nat.
  Hypothesis He : ends_ok r args xk h.
  Hypothesis Hext : ext_ok r args xk h.

  Lemma facts_hermite i : (S i < length xk)%nat ->
    hermite (pw_call r comp) (nth i xk 0) (nth (S i) xk 0) (cn (pc r)) h
            (fun k => yk args comp k i) (fun k => yk args comp k (S i)).
  Proof.
    intros Hi. exists (ccol (pc r) comp (S i)). split.
    { apply (cwf_col _ (wf_c r W)); auto. rewrite ck_eq by auto. rewrite Hx. lia. }
    assert (Hinc : incr xk) by (rewrite <- Hx; apply W). split.
    - intros x Hlt. rewrite pw_call_wf, pw_val_base, pw_reduce_Pw by auto.
      rewrite (base_piece r comp (S i)); [rewrite pxk0_S, Hx; reflexivity|apply W|].
      rewrite Hx. apply interval_piece; auto.
    - intros k Hk. destruct (He comp i k Hb Hi Hk) as [E1 E2].
      assert (HF : INR (fact k) <> 0) by apply INR_fact_neq_0.
      split; (eexists; split; [apply nderiv_peval_shift|]).
      + cbv beta. replace (nth i xk 0 - nth i xk 0) with 0 by ring. rewrite tay_at_0, E1. field; auto.
      + cbv beta. change (nth (S i) xk 0 - nth i xk 0) with (dxs xk i). rewrite E2. field; auto.
  Qed.
  Lemma facts_below x : x <= nth 0 xk 0 ->
    pw_call r comp x = Ok (taylor_poly (fun k => yk args comp k 0) h (x - nth 0 xk 0)).
  Proof.
    intros Hle. assert (Hinc : incr xk) by (rewrite <- Hx; apply W).
    rewrite pw_call_wf, pw_val_base, pw_reduce_Pw by auto. f_equal.
    rewrite (base_piece r comp 0); [|apply W|].
    - rewrite (Hext comp 0%nat 0%nat) by auto. rewrite (wf_first r W), Hx. apply peval_seq.
    - rewrite Hx. split; [lia|]. split; intros j Hj; [lia|].
      apply Rle_trans with (nth 0 xk 0); [lra|apply incr_le; auto; lia].
  Qed.
  Lemma facts_above x : nth (length xk - 1) xk 0 < x ->
    pw_call r comp x = Ok (taylor_poly (fun k => yk args comp k (length xk - 1)) h (x - nth (length xk - 1) xk 0)).
  Proof.
    intros Hlt. assert (Hinc : incr xk) by (rewrite <- Hx; apply W).
    rewrite pw_call_wf, pw_val_base, pw_reduce_Pw by auto. f_equal.
    rewrite (base_piece r comp (length xk)); [|apply W|].
    - rewrite (Hext comp (length xk) (length xk - 1)%nat) by auto.
      replace (nth (length xk) (pxk0 r) 0) with (nth (length xk - 1) xk 0); [apply peval_seq|].
      rewrite <- Hx. rewrite <- pxk0_S. f_equal. rewrite Hx. lia.
    - rewrite Hx. split; [lia|]. split; intros j Hj; [|lia].
      apply Rle_lt_trans with (nth (length xk - 1) xk 0); [apply incr_le; auto; lia|lra].
  Qed.
  Lemma facts_smooth : exists g, derivs_upto h (pw_val r comp) g /\
    forall j k, (j < length xk)%nat -> (k <= h)%nat -> g k (nth j xk 0) = yk args comp k j.
  Proof.
    pose proof (ctor_match r args xk h comp W Hx Hn Hcn Hb He Hext) as M.
    exists (pder r comp). split; [split; [|split]|].
    - intros x. rewrite pder_0, pw_val_base, pw_reduce_Pw by auto. reflexivity.
    - intros k x Hk. apply pder_dpl; [apply W|]. rewrite Hx. intros j Hj _. split; apply M; auto; lia.
    - intros k x Hk. apply pder_cont; [apply W|]. rewrite Hx. intros j Hj _. apply M; auto.
    - intros j k Hj Hk. apply M; auto.
  Qed.
End Facts.

(* The odd-degree constructor PwPoly(xk, y0, ..., yh).  args: h+1 arrays of shape
   s + (len(xk),).  On every finite interval the result is a polynomial of degree
   2h+1 (2h+2 coefficients) with derivatives 0..h equal to the given values at
   both ends; outside the knots it is the Taylor polynomial of degree h at the
   end knot; the function is C^h everywhere and its derivatives at the knots are
   the given values. *)
Theorem C36_odd_constructor : forall inv (xk : list R) (args : list (yarr R)) (s : list nat) (h : nat),
  inv_spec inv -> incr xk -> (2 <= length xk)%nat -> size s <> 0%nat ->
  length args = S h -> (forall a, In a args -> ysh a = s /\ yn a = length xk) ->
  exists p, ctor inv Pw xk args = Ok p /\
    forall comp, inb comp s ->
      let y k i := yval (nth k args (YArr [] 0 (fun _ _ => 0))) comp i in
      (forall i, (S i < length xk)%nat ->
         hermite (pw_call p comp) (nth i xk 0) (nth (S i) xk 0) (2 * h + 2) h
                 (fun k => y k i) (fun k => y k (S i))) /\
      (forall x, x <= nth 0 xk 0 ->
         pw_call p comp x = Ok (taylor_poly (fun k => y k 0%nat) h (x - nth 0 xk 0))) /\
      (forall x, nth (length xk - 1) xk 0 < x ->
         pw_call p comp x = Ok (taylor_poly (fun k => y k (length xk - 1)%nat) h (x - nth (length xk - 1) xk 0))) /\
      exists f g, (forall x, pw_call p comp x = Ok (f x)) /\ derivs_upto h f g /\
        forall j k, (j < length xk)%nat -> (k <= h)%nat -> g k (nth j xk 0) = y k j.
Proof.
  intros inv xk args s h Hinv Hi Hn Hs HL Ha.
  destruct (ctor_odd_ok inv Hinv Pw xk args s Hi Hn Hs) as (r & E & W & R1 & R2 & R3 & R4 & R5 & R6).
  { apply Forall_forall; auto. } { destruct args; [discriminate|congruence]. }
  rewrite HL in *. replace (S h - 1)%nat with h in * by lia. specialize (R6 eq_refl).
  exists r. split; [exact E|]. intros comp Hb y. rewrite <- R3 in Hb.
  assert (Hc : (S h <= cn (pc r))%nat) by lia.
  split; [|split; [|split]].
  - intros i Hl. rewrite <- R4. apply (facts_hermite r args xk h comp); auto.
  - intros x Hx. apply (facts_below r args xk h comp); auto.
  - intros x Hx. apply (facts_above r args xk h comp); auto.
  - destruct (facts_smooth r args xk h comp) as (g & G1 & G2); auto.
    exists (pw_val r comp), g. split; [intros x; apply pw_call_wf; auto|]. split; auto.
Qed.
Print Assumptions C36_odd_constructor.
(* values and slopes at the three knots 0, 1, 3 *)
Definition ex_args : list (yarr R) :=
  [YArr [] 3 (fun _ i => nth i [1; 2; 5] 0); YArr [] 3 (fun _ i => nth i [0; -1; 4] 0)].
Example C36_case : exists p f g, ctor inv_wit Pw [0; 1; 3] ex_args = Ok p /\
  (forall x, pw_call p [] x = Ok (f x)) /\ derivs_upto 1 f g /\ f 3 = 5 /\ g 1%nat 1 = -1.
Proof.
  destruct (C36_odd_constructor inv_wit [0; 1; 3] ex_args [] 1) as (p & E & H).
  - apply inv_spec_nonvacuous.
  - intros [|[|i]] Hi; cbn in *; [lra|lra|lia].
  - cbn; lia.
  - cbn; lia.
  - reflexivity.
  - intros a [<-|[<-|[]]]; cbn; auto.
  - destruct (H [] (Forall2_nil _)) as (_ & _ & _ & f & g & F1 & F2 & F3).
    exists p, f, g. split; auto. split; auto. split; auto. split.
    + rewrite <- (proj1 F2). apply (F3 2%nat 0%nat); cbn; lia.
    + apply (F3 1%nat 1%nat); cbn; lia.
Qed.

(* The documentation says the k-th argument is the k-th derivative divided by k!
   (a Taylor coefficient).  True for k = 0 and 1 only: *)
Theorem C37_taylor_arguments_partial : forall inv (xk : list R) (args : list (yarr R)) (s : list nat) (h : nat),
  inv_spec inv -> incr xk -> (2 <= length xk)%nat -> size s <> 0%nat ->
  length args = S h -> (forall a, In a args -> ysh a = s /\ yn a = length xk) ->
  exists p, ctor inv Pw xk args = Ok p /\
    forall comp, inb comp s ->
      exists f g, (forall x, pw_call p comp x = Ok (f x)) /\ derivs_upto h f g /\
        forall j k, (j < length xk)%nat -> (k <= h)%nat -> (k <= 1)%nat ->
          g k (nth j xk 0) / INR (fact k) = yval (nth k args (YArr [] 0 (fun _ _ => 0))) comp j.
Proof.
  intros inv xk args s h Hinv Hi Hn Hs HL Ha.
  destruct (C36_odd_constructor inv xk args s h Hinv Hi Hn Hs HL Ha) as (p & E & H).
  exists p. split; auto. intros comp Hb. destruct (H comp Hb) as (_ & _ & _ & f & g & F1 & F2 & F3).
  exists f, g. split; auto. split; auto. intros j k Hj Hk Hk1. rewrite F3 by auto.
  destruct k as [|[|k]]; [cbn; field|cbn; field|lia].
Qed.
Print Assumptions C37_taylor_arguments_partial.
Lemma derivs_upto_unique h f g g' : derivs_upto h f g -> derivs_upto h f g' ->
  forall k x, (k <= h)%nat -> g k x = g' k x.
Proof.
  intros (A1 & A2 & _) (B1 & B2 & _). induction k as [|k IH]; intros x Hk.
  - rewrite A1, B1. reflexivity.
  - apply (uniqueness_limite (g k) x); [apply A2; lia|].
    apply (dpl_ext (g' k)); [intros t; symmetry; apply IH; lia|]. apply B2; lia.
Qed.
(* With three arguments the second derivative is the third argument, not twice
   it, whenever that argument is not zero. *)
Theorem C37_taylor_arguments_refuted : forall inv (xk : list R) (y0 y1 y2 : nat -> R) (j : nat),
  inv_spec inv -> incr xk -> (2 <= length xk)%nat -> (j < length xk)%nat -> y2 j <> 0 ->
  exists p f g, ctor inv Pw xk (map (fun y => YArr [] (length xk) (fun _ => y)) [y0; y1; y2]) = Ok p /\
    (forall x, pw_call p [] x = Ok (f x)) /\ derivs_upto 2 f g /\
    g 2%nat (nth j xk 0) / INR (fact 2) <> y2 j.
Proof.
  intros inv xk y0 y1 y2 j Hinv Hi Hn Hj Hy.
  destruct (C36_odd_constructor inv xk (map (fun y => YArr [] (length xk) (fun _ => y)) [y0; y1; y2]) [] 2) as (p & E & H); auto.
  - cbn; lia.
  - cbn. intros a [<-|[<-|[<-|[]]]]; cbn; auto.
  - destruct (H [] (Forall2_nil _)) as (_ & _ & _ & f & g & F1 & F2 & F3).
    exists p, f, g. split; auto. split; auto. split; auto. rewrite F3 by lia. cbn. lra.
Qed.
Print Assumptions C37_taylor_arguments_refuted.

(* The even-degree constructor PwPoly(xk, y0, ..., y(N-1), z), N = h+1, z one
   shorter than xk: pieces of degree 2N interpolating the N lists at both ends,
   C^(N-1) everywhere.  The top coefficient is the value specified divided by
   (h+1)(h+2)...(2h): the value specified itself, as documented, for N = 1. *)
Theorem C38_even_constructor_partial : forall inv (xk : list R) (args : list (yarr R)) (argz : yarr R) (s : list nat) (h : nat),
  inv_spec inv -> incr xk -> (2 <= length xk)%nat -> size s <> 0%nat ->
  length args = S h -> (forall a, In a args -> ysh a = s /\ yn a = length xk) ->
  ysh argz = s -> (yn argz + 1 = length xk)%nat ->
  exists p, ctor inv Pw xk (args ++ [argz]) = Ok p /\
    forall comp, inb comp s ->
      let y k i := yval (nth k args (YArr [] 0 (fun _ _ => 0))) comp i in
      (forall i, (S i < length xk)%nat ->
         exists c, length c = (2 * S h + 1)%nat /\
           (forall x, nth i xk 0 < x <= nth (S i) xk 0 -> pw_call p comp x = Ok (peval c (x - nth i xk 0))) /\
           (forall k, (k <= h)%nat ->
              nderiv_at k (fun x => peval c (x - nth i xk 0)) (nth i xk 0) (y k i) /\
              nderiv_at k (fun x => peval c (x - nth i xk 0)) (nth (S i) xk 0) (y k (S i))) /\
           nth (2 * S h) c 0 * (INR (fact (2 * h)) / INR (fact h)) = yval argz comp i /\
           (h = 0%nat -> nth (2 * S h) c 0 = yval argz comp i)) /\
      exists f g, (forall x, pw_call p comp x = Ok (f x)) /\ derivs_upto h f g /\
        forall j k, (j < length xk)%nat -> (k <= h)%nat -> g k (nth j xk 0) = y k j.
Proof.
  intros inv xk args argz s h Hinv Hi Hn Hs HL Ha Hz1 Hz2.
  destruct (ctor_even_ok inv Hinv Pw xk args s argz Hi Hn Hs) as (r & E & W & R1 & R2 & R3 & R4 & R5 & R6 & R7); auto.
  { apply Forall_forall; auto. } { destruct args; [discriminate|congruence]. }
  rewrite HL in *. replace (S h - 1)%nat with h in * by lia. specialize (R6 eq_refl).
  exists r. split; [exact E|]. intros comp Hb y. rewrite <- R3 in Hb.
  assert (Hc : (S h <= cn (pc r))%nat) by lia. split.
  - intros i Hl.
    assert (Htop : nth (2 * S h) (ccol (pc r) comp (S i)) 0 * (INR (fact (2 * h)) / INR (fact h)) = yval argz comp i).
    { replace (2 * S h)%nat with (2 * h + 2)%nat by lia. rewrite R7 by (auto; rewrite <- R3; auto).
      assert (HZ : forall m a, IZR (zprod (a + 1) m) * INR (fact a) = INR (fact (a + m))).
      { clear. induction m as [|m IH]; intros a; cbn [zprod].
        - rewrite Nat.add_0_r. ring.
        - rewrite mult_IZR, <- INR_IZR_INZ. change (S (a + 1)) with (S a + 1)%nat.
          replace (a + S m)%nat with (S a + m)%nat by lia. rewrite <- IH.
          rewrite (fact_simpl a), mult_INR. replace (a + 1)%nat with (S a) by lia. ring. }
      specialize (HZ h h). replace (2 * h)%nat with (h + h)%nat by lia. rewrite <- HZ.
      assert (INR (fact h) <> 0) by apply INR_fact_neq_0.
      assert (IZR (zprod (h + 1) h) <> 0).
      { intros Z. rewrite Z, Rmult_0_l in HZ. symmetry in HZ. apply INR_fact_neq_0 in HZ. auto. }
      field. auto. }
    exists (ccol (pc r) comp (S i)). split.
    { rewrite (cwf_col _ (wf_c r W)); auto; [lia|]. rewrite ck_eq by auto. rewrite R2. lia. }
    split; [|split; [|split; [exact Htop|]]].
    + intros x Hx. rewrite pw_call_wf, pw_val_base, pw_reduce_Pw by auto.
      rewrite (base_piece r comp (S i)); [rewrite pxk0_S, R2; reflexivity|apply W|].
      rewrite R2. apply interval_piece; auto.
    + intros k Hk. destruct (R5 comp i k Hb Hl Hk) as [E1 E2].
      assert (HF : INR (fact k) <> 0) by apply INR_fact_neq_0.
      split; (eexists; split; [apply nderiv_peval_shift|]).
      * cbv beta. replace (nth i xk 0 - nth i xk 0) with 0 by ring. rewrite tay_at_0, E1.
        change (y k i) with (yk args comp k i). field; auto.
      * cbv beta. change (nth (S i) xk 0 - nth i xk 0) with (dxs xk i). rewrite E2.
        change (y k (S i)) with (yk args comp k (S i)). field; auto.
    + intros ->. rewrite <- Htop. replace (INR (fact (2 * 0)) / INR (fact 0)) with 1 by (cbn; field). ring.
  - destruct (facts_smooth r args xk h comp) as (g & G1 & G2); auto.
    exists (pw_val r comp), g. split; [intros x; apply pw_call_wf; auto|]. split; auto.
Qed.
Print Assumptions C38_even_constructor_partial.
(* With N = 2 lists the quartic coefficient is half the value specified. *)
Theorem C38_even_constructor_refuted : forall inv (xk : list R) (y0 y1 z : nat -> R) (i : nat),
  inv_spec inv -> incr xk -> (2 <= length xk)%nat -> (S i < length xk)%nat -> z i <> 0 ->
  exists p c, ctor inv Pw xk (map (fun y => YArr [] (length xk) (fun _ => y)) [y0; y1]
                              ++ [YArr [] (length xk - 1) (fun _ => z)]) = Ok p /\
    length c = 5%nat /\
    (forall x, nth i xk 0 < x <= nth (S i) xk 0 -> pw_call p [] x = Ok (peval c (x - nth i xk 0))) /\
    nth 4 c 0 <> z i.
Proof.
  intros inv xk y0 y1 z i Hinv Hi Hn Hl Hz.
  destruct (C38_even_constructor_partial inv xk (map (fun y => YArr [] (length xk) (fun _ => y)) [y0; y1])
              (YArr [] (length xk - 1) (fun _ => z)) [] 1) as (p & E & H); auto.
  - cbn; lia.
  - cbn. intros a [<-|[<-|[]]]; cbn; auto.
  - cbn. lia.
  - destruct (H [] (Forall2_nil _)) as (H1 & _). destruct (H1 i Hl) as (c & C1 & C2 & _ & C4 & _).
    exists p, c. split; auto. split; auto. split; auto. cbn in C4 |- *. lra.
Qed.
Print Assumptions C38_even_constructor_refuted.
Example C38_case : exists p, ctor inv_wit Pw [0; 1; 3] (ex_args ++ [YArr [] 2 (fun _ i => nth i [7; 8] 0)]) = Ok p /\
  exists f g, (forall x, pw_call p [] x = Ok (f x)) /\ derivs_upto 1 f g /\ g 1%nat 3 = 4.
Proof.
  destruct (C38_even_constructor_partial inv_wit [0; 1; 3] ex_args (YArr [] 2 (fun _ i => nth i [7; 8] 0)) [] 1) as (p & E & H).
  - apply inv_spec_nonvacuous.
  - intros [|[|i]] Hi; cbn in *; [lra|lra|lia].
  - cbn; lia.
  - cbn; lia.
  - reflexivity.
  - intros a [<-|[<-|[]]]; cbn; auto.
  - reflexivity.
  - reflexivity.
  - destruct (H [] (Forall2_nil _)) as (_ & f & g & F1 & F2 & F3).
    exists p. split; auto. exists f, g. split; auto. split; auto. apply (F3 2%nat 1%nat); cbn; lia.
Qed.

(* Histograms: y one shorter than xk *)
Theorem C39_histogram_short : forall inv (xk : list R) (a : yarr R),
  incr xk -> (2 <= length xk)%nat -> size (ysh a) <> 0%nat -> (yn a + 1 = length xk)%nat ->
  exists p, ctor inv Pw xk [a] = Ok p /\
    forall comp x, inb comp (ysh a) ->
      (x <= nth 0 xk 0 -> pw_call p comp x = Ok 0) /\
      (nth (length xk - 1) xk 0 < x -> pw_call p comp x = Ok 0) /\
      (forall i, (i < yn a)%nat -> nth i xk 0 < x <= nth (S i) xk 0 ->
         pw_call p comp x = Ok (yval a comp i)).
Proof.
  intros inv xk a Hi Hn Hs Ha. unfold ctor. numR. rewrite (incr_not_decr xk Hi). cbn [andb rev app].
  destruct (Nat.eqb_spec (yn a + 1) (length xk)) as [_|]; [|lia].
  cbn [uniform forallb negb yn ysh length Nat.sub].
  destruct (Nat.eqb_spec (yn a) 0); [lia|].
  destruct (Nat.eqb_spec (length xk) 0); [lia|]. rewrite size_snoc.
  destruct (Nat.eqb_spec (size (ysh a) * (yn a + 2)) 0); [nia|]. cbn [orb].
  destruct (Nat.eqb_spec (yn a + 2) (length xk + 1)) as [_|]; [|lia].
  match goal with |- context [rawinit Pw xk ?c] => set (cc := c) end.
  destruct (rawinit_short Pw xk cc) as (r & E & W & R1 & R2 & R3 & R4 & R5 & _ & R7); auto; try lia.
  - split; cbn; [lia|]. intros; reflexivity.
  - cbn. lia.
  - exists r. split; [exact E|]. intros comp x Hb. specialize (R7 eq_refl).
    assert (HC : forall i, in_piece xk i x -> pw_call r comp x =
      Ok (if (i =? 0)%nat || (i =? yn a + 1)%nat then 0 else yval a comp (i - 1)%nat)).
    { intros i Hp. rewrite pw_call_wf, pw_val_base, pw_reduce_Pw by auto. f_equal.
      rewrite (base_piece r comp i); [|apply W|rewrite R2; auto]. rewrite R7. unfold cc, peval. cbn [ccol map yval psum].
      ring. }
    split; [|split].
    + intros Hx. rewrite (HC 0%nat); [reflexivity|]. split; [lia|]. split; intros j Hj; [lia|].
      apply Rle_trans with (nth 0 xk 0); [lra|apply incr_le; auto; lia].
    + intros Hx. rewrite (HC (length xk)).
      * rewrite Ha, Nat.eqb_refl, orb_true_r. reflexivity.
      * split; [lia|]. split; intros j Hj; [|lia].
        apply Rle_lt_trans with (nth (length xk - 1) xk 0); [apply incr_le; auto; lia|lra].
    + intros i Hl Hx. rewrite (HC (S i)) by (apply interval_piece; auto; lia).
      destruct (Nat.eqb_spec (S i) (yn a + 1)); [lia|]. cbn [Nat.eqb orb]. replace (S i - 1)%nat with i by lia. reflexivity.
Qed.
Print Assumptions C39_histogram_short.
(* y one longer than xk: y[i] on the i-th of the len(xk)+1 intervals *)
Theorem C39_histogram_long : forall inv (xk : list R) (a : yarr R),
  incr xk -> (1 <= length xk)%nat -> size (ysh a) <> 0%nat -> (yn a = length xk + 1)%nat ->
  exists p, ctor inv Pw xk [a] = Ok p /\
    forall comp x i, inb comp (ysh a) -> in_piece xk i x -> pw_call p comp x = Ok (yval a comp i).
Proof.
  intros inv xk a Hi Hn Hs Ha. unfold ctor. numR. rewrite (incr_not_decr xk Hi). cbn [andb rev app].
  destruct (Nat.eqb_spec (yn a + 1) (length xk)); [lia|].
  cbn [uniform forallb negb yn ysh length Nat.sub].
  destruct (Nat.eqb_spec (length xk) 0); [lia|]. rewrite size_snoc.
  destruct (Nat.eqb_spec (size (ysh a) * yn a) 0); [nia|]. cbn [orb].
  destruct (Nat.eqb_spec (yn a) (length xk + 1)) as [_|]; [|lia].
  match goal with |- context [rawinit Pw xk ?c] => set (cc := c) end.
  destruct (rawinit_short Pw xk cc) as (r & E & W & R1 & R2 & R3 & R4 & R5 & _ & R7); auto; try lia.
  - split; cbn; [lia|]. intros; reflexivity.
  - cbn. lia.
  - discriminate.
  - exists r. split; [exact E|]. intros comp x i Hb Hp. specialize (R7 eq_refl).
    rewrite pw_call_wf, pw_val_base, pw_reduce_Pw by auto. f_equal.
    rewrite (base_piece r comp i); [|apply W|rewrite R2; auto]. rewrite R7. unfold cc, peval. cbn [ccol map yval psum].
    ring.
Qed.
Print Assumptions C39_histogram_long.
Example C39_case : exists p, ctor inv_wit Pw [0; 1; 3] [YArr [] 2 (fun _ i => nth i [7; 8] 0)] = Ok p /\
  pw_call p [] 2 = Ok 8 /\ pw_call p [] 4 = Ok 0.
Proof.
  destruct (C39_histogram_short inv_wit [0; 1; 3] (YArr [] 2 (fun _ i => nth i [7; 8] 0))) as (p & E & H).
  - intros [|[|i]] Hi; cbn in *; [lra|lra|lia].
  - cbn; lia.
  - cbn; lia.
  - reflexivity.
  - exists p. split; auto. split.
    + apply (H [] 2 (Forall2_nil _)) with (i := 1%nat); cbn; [lia|lra].
    + apply (H [] 4 (Forall2_nil _)); cbn; lra.
Qed.

(* Decreasing knots: for argument arrays of equal shape the result is the one
   for the reversed knots and the reversed arrays (or both are errors, when two
   or more arrays are all one shorter than xk). *)
Theorem C40_decreasing_knots : forall inv cl (xk : list R) (s : list nat) (n : nat) (ys : list (list nat -> nat -> R)),
  (2 <= length xk)%nat -> incr (rev xk) ->
  let dec := ctor inv cl xk (map (YArr s n) ys) in
  let inc := ctor inv cl (rev xk) (map (fun y => YArr s n (fun comp i => y comp (n - 1 - i)%nat)) ys) in
  dec = inc \/ (2 <= length ys /\ n + 1 = length xk /\ exists e e', dec = Err e /\ inc = Err e')%nat.
Proof.
  intros inv cl xk s n ys Hn Hi dec inc. unfold dec, inc. clear dec inc.
  assert (Hd : (1 <? length xk)%nat && Rltb (nth (length xk - 1) xk 0) (nth 0 xk 0) = true).
  { destruct (Nat.ltb_spec 1 (length xk)); [|lia]. cbn [andb].
    destruct (Rltb_spec (nth (length xk - 1) xk 0) (nth 0 xk 0)) as [|L]; [reflexivity|].
    assert (H0 : nth 0 (rev xk) 0 < nth (length xk - 1) (rev xk) 0) by (apply incr_lt; auto; rewrite rev_length; lia).
    rewrite !rev_nth in H0 by lia. replace (length xk - S (length xk - 1))%nat with 0%nat in H0 by lia. lra. }
  assert (HU : uniform (map (YArr s n) ys) = true).
  { apply (uniform_Forall _ s n). apply Forall_forall. intros a Ha. apply in_map_iff in Ha.
    destruct Ha as (y & <- & _). auto. }
  unfold ctor. numR. rewrite Hd, HU. pose proof (incr_not_decr (rev xk) Hi) as Hd'.
  rewrite rev_length in *. rewrite Hd'. cbn [andb negb].
  rewrite map_map.
  change (fun x : list nat -> nat -> R => yrev (YArr s n x)) with
    (fun y : list nat -> nat -> R => YArr s n (fun comp i => y comp (n - 1 - i)%nat)).
  rewrite <- map_rev. destruct (rev ys) as [|y0 yr] eqn:EY; [left; reflexivity|]. cbn [map yn]. rewrite map_length.
  destruct (Nat.eqb_spec (n + 1) (length xk)) as [En|]; [|left; reflexivity]. cbn [andb].
  destruct (Nat.eqb_spec (length yr) 0) as [E0|E0]; cbn [negb].
  - destruct yr; [left; reflexivity|discriminate].
  - right. split; [|split; [auto|]].
    { apply (f_equal (@length _)) in EY. rewrite rev_length in EY. cbn in EY. lia. }
    destruct yr as [|y1 yr]; [cbn in E0; lia|]. cbn [map]. exists ValueError.
    match goal with |- exists e', _ /\ (if negb (uniform ?l) then _ else _) = _ => set (al := l) end.
    assert (HA : Forall (fun a => ysh a = s /\ yn a = n) al).
    { unfold al. apply Forall_rev. constructor; [auto|]. apply Forall_forall. intros a Ha.
      apply in_map_iff in Ha. destruct Ha as (y & <- & _). auto. }
    rewrite (uniform_Forall al s n HA). cbn [negb].
    destruct al as [|a0 ar]; [eexists; split; reflexivity|]. inversion HA as [|? ? [A1 A2] _]; subst.
    destruct ((length xk =? 0)%nat || (size (ysh a0 ++ [yn a0]) =? 0)%nat); [eexists; split; reflexivity|].
    destruct (Nat.eqb_spec (yn a0) (length xk + 1)); [lia|].
    destruct (Nat.eqb_spec (yn a0) (length xk)); [lia|]. eexists; split; reflexivity.
Qed.
Print Assumptions C40_decreasing_knots.
Example C40_case :
  ctor inv_wit Pw [3; 1; 0] (map (YArr [] 3) [(fun _ i => nth i [5; 2; 1] 0); (fun _ i => nth i [4; -1; 0] 0)]) =
  ctor inv_wit Pw [0; 1; 3] (map (fun y => YArr [] 3 (fun comp i => y comp (3 - 1 - i)%nat))
                                 [(fun _ i => nth i [5; 2; 1] 0); (fun _ i => nth i [4; -1; 0] 0)]).
Proof.
  destruct (C40_decreasing_knots inv_wit Pw [3; 1; 0] [] 3 [(fun _ i => nth i [5; 2; 1] 0); (fun _ i => nth i [4; -1; 0] 0)]) as [H|(_ & H & _)].
  - cbn; lia.
  - intros [|[|i]] Hi; cbn in *; [lra|lra|lia].
  - exact H.
  - cbn in H; lia.
Qed.

(* the new knots cover the period of a periodic p *)
Definition same_period (p : pwpoly R) (xk : list R) : Prop :=
  match pcl p with
  | Pw => True
  | Per => nth (length xk - 1) xk 0 - nth 0 xk 0 = nth (length (pxk p) - 1) (pxk p) 0 - nth 0 (pxk p) 0
  end.
(* the arrays of values and derivatives of p that reknot passes on *)
Definition rows (p : pwpoly R) (xk : list R) (h : nat) : list (yarr R) :=
  map (fun k => YArr (csh (pc p)) (length xk)
                     (fun comp i => nth k (pw_vals p comp (nth i xk 0) h) 0)) (seq 0 (S h)).
Lemma rows_yk p xk h comp k i : (k <= h)%nat ->
  yk (rows p xk h) comp k i = nth k (pw_vals p comp (nth i xk 0) h) 0.
Proof.
  intros Hk. unfold yk, rows.
  set (f := fun k => YArr (csh (pc p)) (length xk) (fun comp i => nth k (pw_vals p comp (nth i xk 0) h) 0)).
  rewrite (nth_indep _ _ (f 0%nat)) by (rewrite map_length, seq_length; lia).
  rewrite (map_nth f), seq_nth by lia. reflexivity.
Qed.
Lemma rows_ok p xk h :
  Forall (fun a => ysh a = csh (pc p) /\ yn a = length xk) (rows p xk h) /\ length (rows p xk h) = S h.
Proof.
  split; [|unfold rows; rewrite map_length, seq_length; reflexivity].
  apply Forall_forall. intros a Ha. unfold rows in Ha. apply in_map_iff in Ha. destruct Ha as (k & <- & _). auto.
Qed.
(* values and derivatives of q at the new knots *)
Lemma reknot_knots p q xk h comp j : pw_wf p -> pw_wf q -> pcl q = pcl p -> pxk q = xk ->
  csh (pc q) = csh (pc p) -> (2 <= length xk)%nat -> (S h <= cn (pc q))%nat -> (2 <= cn (pc q))%nat ->
  same_period p xk -> ends_ok q (rows p xk h) xk h -> (pcl q = Pw -> ext_ok q (rows p xk h) xk h) ->
  inb comp (csh (pc p)) -> (j < length xk)%nat -> (h <= 20)%nat ->
  pw_vals q comp (nth j xk 0) h = pw_vals p comp (nth j xk 0) h.
Proof.
  intros Wp Wq Hcl Hx Hsh Hn Hcn Hcn2 Hper He Hext Hb Hj H20.
  assert (Hb' : inb comp (csh (pc q))) by (rewrite Hsh; auto).
  assert (Hinc : incr xk) by (rewrite <- Hx; apply Wq).
  apply list_eq_nth; [rewrite !pw_vals_length; auto|].
  rewrite pw_vals_length by auto. intros k Hk. rewrite pw_vals_nth by (auto; lia). cbv zeta.
  assert (HF : INR (fact k) <> 0) by apply INR_fact_neq_0.
  destruct (pcl q) eqn:EC.
  - rewrite pw_reduce_Pw by auto. rewrite <- rows_yk by lia.
    destruct (ctor_match q (rows p xk h) xk h comp Wq Hx Hn Hcn Hb' He (Hext eq_refl) j k Hj ltac:(lia)) as [_ M].
    exact M.
  - (* periodic: the last knot is the first one *)
    assert (Hv : forall i, (i < length xk - 1)%nat ->
      INR (fact k) * tay k (ccol (pc q) comp i) (nth i xk 0 - nth i (pxk0 q) 0) = nth k (pw_vals p comp (nth i xk 0) h) 0).
    { intros i Hl. rewrite <- rows_yk by lia. destruct i as [|i].
      - rewrite (wf_first q Wq), Hx. replace (nth 0 xk 0 - nth 0 xk 0) with 0 by ring. rewrite tay_at_0.
        destruct (wf_per q Wq EC) as (_ & _ & HC). destruct (HC comp Hb') as [-> _].
        destruct (He comp 0%nat k Hb') as [-> _]; [lia|lia|]. field; auto.
      - rewrite pxk0_S, Hx. change (nth (S i) xk 0 - nth i xk 0) with (dxs xk i).
        destruct (He comp i k Hb') as [_ ->]; [lia|lia|]. field; auto. }
    assert (Hlen : per_len q = nth (length xk - 1) xk 0 - nth 0 xk 0) by (unfold per_len; rewrite Hx; reflexivity).
    unfold same_period in Hper. rewrite <- Hcl in Hper. fold (per_len p) in Hper. rewrite <- Hlen in Hper.
    assert (Hred : forall i, (i < length xk - 1)%nat -> pw_reduce q (nth i xk 0) = nth i xk 0).
    { intros i Hl. apply (reduce_unique q _ _ 0%Z Wq EC); [ring|]. rewrite Hx, Hlen. split.
      - apply incr_le; auto; lia.
      - assert (nth i xk 0 < nth (length xk - 1) xk 0) by (apply incr_lt; auto; lia). lra. }
    destruct (Nat.eq_dec j (length xk - 1)) as [Ej|Nj].
    + assert (R1 : pw_reduce q (nth j xk 0) = nth 0 xk 0).
      { rewrite Ej. replace (nth (length xk - 1) xk 0) with (nth 0 xk 0 + IZR 1 * per_len q) by (rewrite Hlen; ring).
        rewrite reduce_periodic by auto. apply Hred; lia. }
      rewrite R1, Hx. rewrite (ssearch_unique xk 0) by (auto; apply in_piece_knot; auto; lia).
      rewrite Hv by lia.
      assert (R2 : pw_reduce p (nth j xk 0) = pw_reduce p (nth 0 xk 0)).
      { rewrite Ej. replace (nth (length xk - 1) xk 0) with (nth 0 xk 0 + IZR 1 * per_len p) by (rewrite <- Hper, Hlen; ring).
        apply reduce_periodic; auto. }
      unfold pw_vals. rewrite R2. reflexivity.
    + rewrite Hred, Hx by lia. rewrite (ssearch_unique xk j) by (auto; apply in_piece_knot; auto; lia).
      apply Hv. lia.
Qed.
Lemma last_nth (l : list R) d : last l d = nth (length l - 1) l d.
Proof.
  induction l as [|a [|b l] IH]; [reflexivity|reflexivity|].
  change (last (a :: b :: l) d) with (last (b :: l) d). rewrite IH. cbn [length nth Nat.sub]. rewrite Nat.sub_0_r. reflexivity.
Qed.
Lemma reknot_unfold inv p xk n : pw_wf p -> incr xk -> (2 <= length xk)%nat -> same_period p xk ->
  reknot inv p xk (Some n) =
    if Nat.odd n then ctor inv (pcl p) xk (rows p xk ((n - 1) / 2))
    else match deriv p n with
         | Err e => Err e
         | Ok d => match pw_ok d with
                   | Err e => Err e
                   | Ok _ => ctor inv (pcl p) xk (rows p xk ((n - 1) / 2) ++
                       [YArr (csh (pc d)) (length xk - 1) (fun comp i => pw_val d comp (mid xk i))])
                   end
         end.
Proof.
  intros W Hi Hn Hper. unfold reknot. destruct xk as [|x0 xt] eqn:EX; [cbn in Hn; lia|]. rewrite <- EX in *.
  assert (Hl : last xk n0 = nth (length xk - 1) xk 0).
  { apply last_nth. }
  assert (H0 : x0 = nth 0 xk 0) by (rewrite EX; reflexivity).
  rewrite Hl. numR.
  destruct (Rltb_spec (nth (length xk - 1) xk 0) x0) as [L|_].
  { assert (nth 0 xk 0 < nth (length xk - 1) xk 0) by (apply incr_lt; auto; lia). lra. }
  assert (HP : (match pcl p, pper p with
                | Pw, _ => Ok tt
                | Per, None => Err AttributeError
                | Per, Some T => if Rltb (tol6 * T) (nabs (nth (length xk - 1) xk 0 - nth 0 xk 0 - T)) then Err ValueError else Ok tt
                end) = Ok tt).
  { destruct (pcl p) eqn:EC; [reflexivity|]. destruct (wf_per p W EC) as (_ & -> & _).
    unfold same_period in Hper. rewrite EC in Hper. fold (per_len p) in Hper |- *. rewrite Hper, nabs_R.
    replace (per_len p - per_len p) with 0 by ring. rewrite Rabs_R0. pose proof (per_len_pos p W EC).
    destruct (Rltb_spec (tol6 * per_len p) 0) as [L|_]; [|reflexivity].
    assert (0 < @tol6 R _) by (unfold tol6; numR; lra). nra. }
  numR. unfold bind. rewrite HP. rewrite pw_ok_wf by auto. unfold rows. numR.
  destruct (Nat.odd n); [reflexivity|]. destruct (deriv p n); [|reflexivity]. destruct (pw_ok a); reflexivity.
Qed.

(* v lists the derivatives 0..h at x that p reports; they are the true
   derivatives of p there unless x falls on a knot of p *)
Definition reports (p : pwpoly R) (comp : list nat) (x : R) (h : nat) (v : list R) : Prop :=
  pw_calln p comp x h = Ok v /\ length v = S h /\
  ((2 <= cn (pc p))%nat -> ~ is_knot (pxk p) (pw_reduce p x) ->
   forall k, (k <= h)%nat -> (k <= 20)%nat -> local_nderiv k (pw_val p comp) x (nth k v 0)).
Lemma reports_ok p comp x h : pw_wf p -> inb comp (csh (pc p)) -> reports p comp x h (pw_vals p comp x h).
Proof.
  intros W Hb. split; [|split].
  - unfold pw_calln. rewrite pw_ok_wf by auto. reflexivity.
  - apply pw_vals_length; auto.
  - intros Hc N k Hk H20. rewrite pw_vals_nth by auto. apply pw_local_nderiv; auto.
Qed.

(* reknot with n odd: a piecewise polynomial of degree n that at every new knot
   has the derivatives 0..(n-1)/2 that p reports (the true ones up to the 20th); it is C^((n-1)/2) everywhere when
   not periodic *)
Theorem C48_reknot_odd_partial : forall inv (p : pwpoly R) (xk : list R) (n : nat),
  inv_spec inv -> pw_wf p -> size (csh (pc p)) <> 0%nat ->
  incr xk -> (2 <= length xk)%nat -> same_period p xk -> Nat.odd n = true ->
  let h := ((n - 1) / 2)%nat in
  exists q, reknot inv p xk (Some n) = Ok q /\ pxk q = xk /\ cn (pc q) = S n /\ csh (pc q) = csh (pc p) /\
    forall comp, inb comp (csh (pc p)) ->
      (forall j, (j < length xk)%nat ->
         exists v, reports p comp (nth j xk 0) h v /\ ((h <= 20)%nat -> pw_calln q comp (nth j xk 0) h = Ok v)) /\
      (pcl p = Pw -> exists g, derivs_upto h (pw_val q comp) g /\
         forall j k v, (j < length xk)%nat -> (k <= h)%nat -> pw_calln p comp (nth j xk 0) h = Ok v ->
           g k (nth j xk 0) = nth k v 0).
Proof.
  intros inv p xk n Hinv W Hs Hi Hn Hper Hodd h.
  assert (Hnh : n = (2 * h + 1)%nat).
  { apply Nat.odd_spec in Hodd. destruct Hodd as (m & ->). unfold h.
    replace (2 * m + 1 - 1)%nat with (m * 2)%nat by lia. rewrite Nat.div_mul by lia. lia. }
  rewrite reknot_unfold by auto. rewrite Hodd. fold h.
  destruct (rows_ok p xk h) as [RO RL].
  destruct (ctor_odd_ok inv Hinv (pcl p) xk (rows p xk h) (csh (pc p)) Hi Hn Hs RO) as (q & E & Wq & R1 & R2 & R3 & R4 & R5 & R6).
  { intros Z. rewrite Z in RL. discriminate. }
  rewrite RL in *. replace (S h - 1)%nat with h in * by lia.
  exists q. split; auto. split; auto. split; [lia|]. split; auto. intros comp Hb. split.
  - intros j Hj. exists (pw_vals p comp (nth j xk 0) h). split; [apply reports_ok; auto|]. intros H20.
    unfold pw_calln. rewrite pw_ok_wf by auto. cbn [bind]. f_equal. apply (reknot_knots p q xk h); auto; try lia.
    intros HP. apply R6. congruence.
  - intros HP. destruct (facts_smooth q (rows p xk h) xk h comp) as (g & G1 & G2); auto; try congruence; try lia.
    exists g. split; auto. intros j k v Hj Hk Hv. rewrite G2, rows_yk by auto.
    unfold pw_calln in Hv. rewrite pw_ok_wf in Hv by auto. cbn [bind] in Hv. inversion Hv. reflexivity.
Qed.
Print Assumptions C48_reknot_odd_partial.

(* n even, n >= 2: the same at the knots, but the n-th derivative of the result
   at the midpoints is that of p times n! h!/(2h)!, h = (n-2)/2. *)
Theorem C48_reknot_even_partial : forall inv (p : pwpoly R) (xk : list R) (h : nat),
  inv_spec inv -> pw_wf p -> pcl p = Pw -> size (csh (pc p)) <> 0%nat ->
  incr xk -> (2 <= length xk)%nat ->
  let n := (2 * h + 2)%nat in
  exists q, reknot inv p xk (Some n) = Ok q /\ pxk q = xk /\ cn (pc q) = S n /\ csh (pc q) = csh (pc p) /\
    forall comp, inb comp (csh (pc p)) ->
      (forall j, (j < length xk)%nat ->
         exists v, reports p comp (nth j xk 0) h v /\ ((h <= 20)%nat -> pw_calln q comp (nth j xk 0) h = Ok v)) /\
      (exists g, derivs_upto h (pw_val q comp) g /\
         forall j k v, (j < length xk)%nat -> (k <= h)%nat -> pw_calln p comp (nth j xk 0) h = Ok v ->
           g k (nth j xk 0) = nth k v 0) /\
      (forall i, (S i < length xk)%nat ->
         let m := (nth i xk 0 + nth (S i) xk 0) / 2 in ~ is_knot (pxk p) m ->
         exists d, local_nderiv n (pw_val p comp) m d /\
           local_nderiv n (pw_val q comp) m (d * (INR (fact n) * INR (fact h) / INR (fact (2 * h))))).
Proof.
  intros inv p xk h Hinv W HP Hs Hi Hn n.
  assert (Hev : Nat.odd n = false).
  { unfold n. replace (2 * h + 2)%nat with (2 * (h + 1))%nat by lia. rewrite Nat.odd_mul. reflexivity. }
  assert (Hh : ((n - 1) / 2)%nat = h).
  { unfold n. replace (2 * h + 2 - 1)%nat with (1 + h * 2)%nat by lia. rewrite Nat.div_add by lia. reflexivity. }
  assert (Hper : same_period p xk) by (unfold same_period; rewrite HP; exact I).
  rewrite reknot_unfold by auto. rewrite Hev, Hh.
  destruct (deriv_ok p n W) as (d & ED & Wd & D1 & D2 & D3 & D4 & D5). rewrite ED, pw_ok_wf by auto. rewrite D3.
  destruct (rows_ok p xk h) as [RO RL].
  destruct (ctor_even_ok inv Hinv (pcl p) xk (rows p xk h) (csh (pc p))
    (YArr (csh (pc p)) (length xk - 1) (fun comp i => pw_val d comp (mid xk i))) Hi Hn Hs RO)
    as (q & E & Wq & R1 & R2 & R3 & R4 & R5 & R6 & R7).
  { intros Z. rewrite Z in RL. discriminate. } { reflexivity. } { cbn [yn]. lia. }
  rewrite RL in *. replace (S h - 1)%nat with h in * by lia.
  exists q. split; auto. split; auto. split; [lia|]. split; auto. intros comp Hb. split; [|split].
  - intros j Hj. exists (pw_vals p comp (nth j xk 0) h). split; [apply reports_ok; auto|]. intros H20.
    unfold pw_calln. rewrite pw_ok_wf by auto. cbn [bind]. f_equal. apply (reknot_knots p q xk h); auto; try lia.
  - destruct (facts_smooth q (rows p xk h) xk h comp) as (g & G1 & G2); auto; try congruence; try lia.
    exists g. split; auto. intros j k v Hj Hk Hv. rewrite G2, rows_yk by auto.
    unfold pw_calln in Hv. rewrite pw_ok_wf in Hv by auto. cbn [bind] in Hv. inversion Hv. reflexivity.
  - intros i Hl m Nk. exists (pw_val d comp m). split.
    + rewrite (deriv_val p n d comp m W ED Hb). apply pw_local_nderiv; auto. rewrite pw_reduce_Pw by auto. auto.
    + assert (Hm : nth i xk 0 < m < nth (S i) xk 0) by (pose proof (Hi i Hl); unfold m; lra).
      assert (Nq : ~ is_knot (pxk q) (pw_reduce q m)).
      { rewrite pw_reduce_Pw by congruence. rewrite R2. intros (j & Hj & E2).
        destruct (le_lt_dec j i) as [L|L].
        - pose proof (incr_le xk j i Hi ltac:(lia)). lra.
        - pose proof (incr_le xk (S i) j Hi ltac:(lia)). lra. }
      pose proof (pw_local_nderiv q comp n m Wq Nq) as L. cbv zeta in L.
      rewrite pw_reduce_Pw in L by congruence. rewrite (ssearch_unique _ (S i)) in L.
      2:{ apply Wq. } 2:{ rewrite R2. apply interval_piece; auto. lra. }
      assert (HT : forall x, tay n (ccol (pc q) comp (S i)) x = nth n (ccol (pc q) comp (S i)) 0).
      { assert (HLn : length (ccol (pc q) comp (S i)) = S n).
        { rewrite (cwf_col _ (wf_c q Wq)); [lia|rewrite R3; auto|]. rewrite ck_eq by auto. rewrite R2. lia. }
        revert HLn. clear. generalize (ccol (pc q) comp (S i)). clear. generalize n. clear.
        induction n as [|n IH]; intros [|a l] HL x; try discriminate; cbn in HL.
        - destruct l; [|discriminate]. cbn. ring.
        - cbn [tay nth]. rewrite (tay_big (S n) l) by lia. rewrite IH by lia. ring. }
      rewrite HT in L. unfold n in L at 2. rewrite R7 in L by auto. cbn [yval] in L.
      replace (mid xk i) with m in L by (unfold mid, m; numR; field).
      assert (HZ : forall m a, IZR (zprod (a + 1) m) * INR (fact a) = INR (fact (a + m))).
      { clear. induction m as [|m IH]; intros a; cbn [zprod].
        - rewrite Nat.add_0_r. ring.
        - rewrite mult_IZR, <- INR_IZR_INZ. change (S (a + 1)) with (S a + 1)%nat.
          replace (a + S m)%nat with (S a + m)%nat by lia. rewrite <- IH.
          rewrite (fact_simpl a), mult_INR. replace (a + 1)%nat with (S a) by lia. ring. }
      specialize (HZ h h).
      replace (pw_val d comp m * (INR (fact n) * INR (fact h) / INR (fact (2 * h))))
        with (INR (fact n) * (pw_val d comp m / IZR (zprod (h + 1) h))); [exact L|].
      replace (2 * h)%nat with (h + h)%nat by lia. rewrite <- HZ.
      assert (INR (fact h) <> 0) by apply INR_fact_neq_0.
      assert (IZR (zprod (h + 1) h) <> 0).
      { intros Z. rewrite Z, Rmult_0_l in HZ. symmetry in HZ. apply INR_fact_neq_0 in HZ. auto. }
      field. auto.
Qed.
Print Assumptions C48_reknot_even_partial.

(* the parabola x^2 on [0, 1] *)
Definition ex_sq : pwpoly R := PwP Pw [0; 0; 1] (CArr 3 [] 3 (fun _ i => nth i [[0; 0; 1]; [0; 0; 1]; [1; 2; 1]] [])) None.
Example ex_sq_wf : pw_wf ex_sq.
Proof.
  split; cbn; try lia; try reflexivity.
  - split; cbn; [lia|]. intros comp i _ Hi. destruct i as [|[|[|i]]]; cbn; reflexivity || lia.
  - intros [|i] Hi; cbn in *; [lra|lia].
  - discriminate.
Qed.
Lemma local_nderiv_unique2 f x v w : local_nderiv 2 f x v -> local_nderiv 2 f x w -> v = w.
Proof.
  intros (e1 & F & He1 & HF & g & (h & (h0 & A0 & A1) & A2) & <-) (e2 & G & He2 & HG & g' & (k & (k0 & B0 & B1) & B2) & <-).
  assert (Hd : forall t, Rabs (t - x) < Rmin e1 e2 -> h t = k t).
  { intros t Ht. apply (uniqueness_limite F t).
    - apply (dpl_ext h0); auto.
    - assert (HB : derivable_pt_lim G t (k t)) by (apply (dpl_ext k0); auto).
      intros eps Heps. destruct (HB eps Heps) as (d & Hd).
      assert (Hpos : 0 < Rmin d (Rmin e1 e2 - Rabs (t - x))) by (apply Rmin_glb_lt; [apply cond_pos|lra]).
      exists (mkposreal _ Hpos). cbn [pos]. intros u Hu1 Hu2.
      assert (U1 : Rabs u < d) by (eapply Rlt_le_trans; [exact Hu2|apply Rmin_l]).
      assert (U2 : Rabs u < Rmin e1 e2 - Rabs (t - x)) by (eapply Rlt_le_trans; [exact Hu2|apply Rmin_r]).
      assert (U3 : Rabs (t + u - x) < Rmin e1 e2).
      { replace (t + u - x) with ((t - x) + u) by ring. eapply Rle_lt_trans; [apply Rabs_triang|lra]. }
      pose proof (Rmin_l e1 e2). pose proof (Rmin_r e1 e2).
      rewrite <- (HF (t + u)), <- (HF t), (HG (t + u)), (HG t) by lra. apply Hd; auto. }
  apply (uniqueness_limite h x); [apply A2|].
  assert (HB : derivable_pt_lim k x (g' x)) by apply B2.
  intros eps Heps. destruct (HB eps Heps) as (d & HD).
  assert (Hpos : 0 < Rmin d (Rmin e1 e2)) by (repeat apply Rmin_glb_lt; auto; apply cond_pos).
  exists (mkposreal _ Hpos). cbn [pos]. intros u Hu1 Hu2. rewrite !Hd.
  - apply HD; auto. eapply Rlt_le_trans; [exact Hu2|apply Rmin_l].
  - replace (x - x) with 0 by ring. rewrite Rabs_R0. apply Rmin_glb_lt; auto.
  - replace (x + u - x) with u by ring. eapply Rlt_le_trans; [exact Hu2|apply Rmin_r].
Qed.
(* x^2 reknotted with n = 2 on the knots 0, 1 has second derivative 4 instead of
   2 at the midpoint *)
Theorem C48_reknot_even_refuted : forall inv, inv_spec inv ->
  exists (p q : pwpoly R) (xk : list R) (m d : R),
    pw_wf p /\ pcl p = Pw /\ incr xk /\ (2 <= length xk)%nat /\ m = (nth 0 xk 0 + nth 1 xk 0) / 2 /\
    reknot inv p xk (Some 2%nat) = Ok q /\
    local_nderiv 2 (pw_val p []) m d /\ ~ local_nderiv 2 (pw_val q []) m d.
Proof.
  intros inv Hinv.
  assert (Hi : incr [0; 1]) by (intros [|i] Hi; cbn in *; [lra|lia]).
  destruct (C48_reknot_even_partial inv ex_sq [0; 1] 0 Hinv ex_sq_wf eq_refl) as (q & E & _ & _ & _ & H); auto.
  { cbn; lia. }
  destruct (H [] (Forall2_nil _)) as (_ & _ & H3). destruct (H3 0%nat) as (d & D1 & D2); [cbn; lia| |].
  { cbn. intros (j & Hj & Ej). cbn in Hj. destruct j as [|[|j]]; cbn in Ej; [lra|lra|lia]. }
  exists ex_sq, q, [0; 1], ((nth 0 [0; 1] 0 + nth 1 [0; 1] 0) / 2), d.
  split; [apply ex_sq_wf|]. split; [reflexivity|]. split; auto. split; [cbn; lia|]. split; auto. split; [exact E|].
  split; [exact D1|]. intros D3. pose proof (local_nderiv_unique2 _ _ _ _ D2 D3) as U. cbn in U.
  assert (d = 0) by lra. subst d.
  (* but the second derivative of x^2 is 2 *)
  assert (Nk : ~ is_knot (pxk ex_sq) (pw_reduce ex_sq (1/2))).
  { rewrite pw_reduce_Pw by reflexivity. intros (j & Hj & Ej). cbn in Hj. destruct j as [|[|j]]; cbn in Ej; [lra|lra|lia]. }
  pose proof (pw_local_nderiv ex_sq [] 2 (1/2) ex_sq_wf Nk) as L. cbv zeta in L. rewrite pw_reduce_Pw in L by reflexivity.
  rewrite (ssearch_unique _ 1) in L.
  - cbn in D1. replace ((0 + 1) / 2) with (1/2) in D1 by field.
    pose proof (local_nderiv_unique2 _ _ _ _ D1 L) as U2. cbn in U2. lra.
  - apply ex_sq_wf.
  - apply (interval_piece [0; 1] 0); auto; cbn; lra.
Qed.
Print Assumptions C48_reknot_even_refuted.
(* beyond n = 41 the derivatives that reknot takes from p are not those of p: with n = 43 the 21st derivative of the
   result at the knots is that of p times -0.083 *)
Theorem C48_order_refuted : forall inv (p : pwpoly R) (xk : list R) comp,
  inv_spec inv -> pw_wf p -> pcl p = Pw -> size (csh (pc p)) <> 0%nat -> incr xk -> (2 <= length xk)%nat ->
  inb comp (csh (pc p)) -> (21 < cn (pc p))%nat ->
  exists q d g, reknot inv p xk (Some 43%nat) = Ok q /\ deriv p 21 = Ok d /\ derivs_upto 21 (pw_val q comp) g /\
    forall j, (j < length xk)%nat -> g 21%nat (nth j xk 0) = pw_val d comp (nth j xk 0) * (-4249290049419214848 / 51090942171709440000).
Proof.
  intros inv p xk comp Hinv W HP Hs Hi Hn Hb Hc.
  destruct (C48_reknot_odd_partial inv p xk 43 Hinv W Hs Hi Hn) as (q & E & _ & _ & _ & H); [unfold same_period; rewrite HP; exact I|reflexivity|].
  destruct (H comp Hb) as [_ H2]. destruct (H2 HP) as (g & G1 & G2). change ((43 - 1) / 2)%nat with 21%nat in *.
  destruct (C33_factorial_refuted p comp 0 21 W Hb Hc (le_n _)) as (d & _ & D & _). exists q, d, g. split; [exact E|]. split; [exact D|]. split; [exact G1|].
  intros j Hj. destruct (C33_factorial_refuted p comp (nth j xk 0) 21 W Hb Hc (le_n _)) as (d' & vs & D' & V & R). assert (d' = d) by congruence. subst d'.
  rewrite (G2 j 21%nat vs Hj (le_n _) V). exact R.
Qed.
Print Assumptions C48_order_refuted.
Example C48_case : exists q v, reknot inv_wit ex_sq [0; 1; 3] (Some 3%nat) = Ok q /\
  pw_calln ex_sq [] 1 1 = Ok v /\ pw_calln q [] 1 1 = Ok v.
Proof.
  destruct (C48_reknot_odd_partial inv_wit ex_sq [0; 1; 3] 3) as (q & E & _ & _ & _ & H); auto.
  - apply inv_spec_nonvacuous.
  - apply ex_sq_wf.
  - cbn; lia.
  - intros [|[|i]] Hi; cbn in *; [lra|lra|lia].
  - cbn; lia.
  - exact I.
  - destruct (H [] (Forall2_nil _)) as (H1 & _). destruct (H1 1%nat) as (v & (V1 & _) & V2); [cbn; lia|].
    exists q, v. split; [auto|]. split; [auto|]. apply V2. cbn. lia.
Qed.
