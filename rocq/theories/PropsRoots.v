(* C51, C52: roots of piecewise polynomials (npplus/pwpoly.py:412-523). *)
From Coq Require Import Reals List Arith Lia Lra ZArith Bool Relations ClassicalEpsilon FinFun.
From Verif Require Import Num PyBase NdArray Poly SpecPoly PolyProofs PwPoly PwBase PwDeriv Roots RootsProofs.
Import ListNotations.
Local Open Scope R_scope.

(* ---- specification vocabulary ---- *)
(* length of piece i, that of the neighbouring piece for the two unbounded ones,
   1 if there is only one knot *)
Definition piece_gap (xk : list R) (i : nat) : R :=
  match xk with
  | [_] => 1
  | _ => let j := Nat.max 1 (Nat.min i (length xk - 1)) in nth j xk 0 - nth (j - 1) xk 0
  end.
(* not further than 1/tol neighbouring intervals outside the knots *)
Definition within_reach (tol : R) (xk : list R) (x : R) : Prop :=
  tol * (nth 0 xk 0 - x) < piece_gap xk 0 /\
  tol * (x - nth (length xk - 1) xk 0) < piece_gap xk (length xk).
(* a and b both satisfy S and b is at most eps above a *)
Definition near_dup (S : R -> Prop) (eps a b : R) : Prop := S a /\ S b /\ a <= b <= a + eps.
(* y stands for x: there is a chain of near duplicates from y up to x *)
Definition stands_for (S : R -> Prop) (eps y x : R) : Prop :=
  clos_refl_trans R (near_dup S eps) y x.
(* l is a real eigenvalue of the n by n matrix m *)
Definition real_eigenvalue (n : nat) (m : nat -> nat -> R) (l : R) : Prop :=
  exists w : nat -> R, (exists i, (i < n)%nat /\ w i <> 0) /\
    forall i, (i < n)%nat -> sum_f_R0 (fun j => m i j * w j) (n - 1) = l * w i.
(* numpy.linalg.eigvals, restricted to the real ones, is correct *)
Definition eig_spec (eigreal : nat -> (nat -> nat -> R) -> list R) : Prop :=
  forall n m, (1 <= n)%nat -> (exists l, forall z, real_eigenvalue n m z -> In z l) ->
    forall z, In z (eigreal n m) <-> real_eigenvalue n m z.
Definition eig_wit (n : nat) (m : nat -> nat -> R) : list R :=
  epsilon (inhabits []) (fun l => forall z, In z l <-> real_eigenvalue n m z).
Example eig_spec_nonvacuous : eig_spec eig_wit.
Proof.
  intros n m _ (l & Hl). apply (epsilon_spec (inhabits []) (fun l => forall z, In z l <-> real_eigenvalue n m z)).
  exists (filter (fun z => if excluded_middle_informative (real_eigenvalue n m z) then true else false) l).
  intros z. rewrite filter_In. destruct (excluded_middle_informative (real_eigenvalue n m z)); [|intuition discriminate].
  intuition.
Qed.

(* ---- companion matrix ---- *)
Lemma companion_row n c (w : nat -> R) i : (1 <= n)%nat -> (i < n)%nat ->
  sum_f_R0 (fun j => companion n c i j * w j) (n - 1) =
  (match i with O => 0 | S k => w k end) - nth i c 0 / nth n c 0 * w (n - 1)%nat.
Proof.
  intros Hn Hi.
  assert (G : forall M, (M < n - 1)%nat ->
    sum_f_R0 (fun j => companion n c i j * w j) M = match i with O => 0 | S k => if (k <=? M)%nat then w k else 0 end).
  { induction M as [|M IH]; intros HM; cbn [sum_f_R0]; [|rewrite IH by lia]; unfold companion.
    - destruct (Nat.eqb_spec 0 (n - 1)); [lia|]. destruct i as [|k]; cbn; numR; [ring|].
      destruct k; cbn; ring.
    - destruct (Nat.eqb_spec (S M) (n - 1)); [lia|]. numR.
      destruct (Nat.eqb_spec i (S (S M))) as [->|Hne].
      + destruct (Nat.leb_spec (S M) M); [lia|]. rewrite Nat.leb_refl. ring.
      + destruct i as [|k]; [ring|]. destruct (Nat.leb_spec k M), (Nat.leb_spec k (S M)); try lia; try ring. }
  destruct (n - 1)%nat as [|m] eqn:E.
  - cbn [sum_f_R0]. unfold companion. rewrite E. cbn. numR. destruct i; [|lia].
    unfold Rdiv. ring.
  - cbn [sum_f_R0]. rewrite G by lia. unfold companion at 1. rewrite E, Nat.eqb_refl. numR.
    replace (match i with O => 0 | S k => if (k <=? m)%nat then w k else 0 end)
      with (match i with O => 0 | S k => w k end).
    + unfold Rdiv. ring.
    + destruct i as [|k]; [reflexivity|]. destruct (Nat.leb_spec k m); [reflexivity|lia].
Qed.
Lemma skipn_cons {A} (d : A) i c : (i < length c)%nat -> skipn i c = nth i c d :: skipn (S i) c.
Proof.
  revert c; induction i as [|i IH]; intros [|a c] H; cbn in H; try lia; [reflexivity|].
  change (skipn (S i) (a :: c)) with (skipn i c). rewrite IH by lia. reflexivity.
Qed.
Lemma companion_eigen n c l : (1 <= n)%nat -> length c = S n -> nth n c 0 <> 0 ->
  (real_eigenvalue n (companion n c) l <-> peval c l = 0).
Proof.
  intros Hn HL Hc.
  assert (Hsk : forall i, (i <= n)%nat -> peval (skipn i c) l = nth i c 0 + l * peval (skipn (S i) c) l).
  { intros i Hi. rewrite (skipn_cons 0 i) by lia. apply peval_cons. }
  assert (Hlast : peval (skipn n c) l = nth n c 0).
  { rewrite Hsk by lia. rewrite skipn_all2 by lia. rewrite peval_nil. ring. }
  split.
  - intros (w & (i0 & Hi0 & Hw) & H).
    assert (H' : forall i, (i < n)%nat ->
      (match i with O => 0 | S k => w k end) - nth i c 0 / nth n c 0 * w (n - 1)%nat = l * w i).
    { intros i Hi. rewrite <- companion_row by lia. auto. }
    assert (Q : forall k, (k < n)%nat ->
      w (n - 1 - k)%nat = w (n - 1)%nat * peval (skipn (n - k) c) l / nth n c 0).
    { induction k as [|k IH]; intros Hk.
      - rewrite !Nat.sub_0_r, Hlast. field. auto.
      - specialize (IH ltac:(lia)). specialize (H' (n - 1 - k)%nat ltac:(lia)).
        destruct (n - 1 - k)%nat as [|m] eqn:E; [lia|].
        replace (n - 1 - S k)%nat with m by lia. replace (n - S k)%nat with (S m) by lia.
        replace (n - k)%nat with (S (S m)) in IH by lia.
        rewrite Hsk by lia. rewrite IH in H'. 
        replace (w m) with (l * (w (n - 1)%nat * peval (skipn (S (S m)) c) l / nth n c 0) +
                            nth (S m) c 0 / nth n c 0 * w (n - 1)%nat) by lra.
        field. auto. }
    assert (Hz : w (n - 1)%nat <> 0).
    { intros Z. apply Hw. specialize (Q (n - 1 - i0)%nat ltac:(lia)).
      replace (n - 1 - (n - 1 - i0))%nat with i0 in Q by lia. rewrite Q, Z. unfold Rdiv. ring. }
    specialize (H' 0%nat ltac:(lia)). specialize (Q (n - 1)%nat ltac:(lia)).
    replace (n - 1 - (n - 1))%nat with 0%nat in Q by lia. replace (n - (n - 1))%nat with 1%nat in Q by lia.
    pose proof (Hsk 0%nat ltac:(lia)) as S0. change (skipn 0 c) with c in S0. rewrite S0. rewrite Q in H'.
    assert (w (n - 1)%nat * (nth 0 c 0 + l * peval (skipn 1 c) l) = 0).
    { apply (Rmult_eq_reg_r (/ nth n c 0)); [|apply Rinv_neq_0_compat; auto]. unfold Rdiv in H'. lra. }
    apply Rmult_integral in H0. tauto.
  - intros Z. exists (fun j => peval (skipn (S j) c) l / nth n c 0). split.
    + exists (n - 1)%nat. split; [lia|]. replace (S (n - 1)) with n by lia. rewrite Hlast. 
      unfold Rdiv. rewrite Rinv_r by auto. lra.
    + intros i Hi. rewrite companion_row by lia. cbv beta. replace (S (n - 1)) with n by lia. rewrite Hlast.
      destruct i as [|k].
      * pose proof (Hsk 0%nat ltac:(lia)) as S0. change (skipn 0 c) with c in S0. rewrite S0 in Z.
        replace (peval (skipn 1 c) l) with (peval (skipn 1 c) l) by reflexivity.
        apply (Rmult_eq_reg_r (nth n c 0)); [|auto]. field_simplify; auto. lra.
      * rewrite (Hsk (S k)) by lia. field. auto.
Qed.
(* a polynomial that is not zero has finitely many zeros *)
Lemma finite_zeros n : forall c, (length c <= n)%nat -> (exists x, peval c x <> 0) ->
  exists l, forall x, peval c x = 0 -> In x l.
Proof.
  induction n as [|n IH]; intros c HL (y & Hy).
  - destruct c; [|cbn in HL; lia]. exfalso; apply Hy; reflexivity.
  - destruct (excluded_middle_informative (exists r, peval c r = 0)) as [(r & Hr)|N].
    2:{ exists []. intros x Hx. exfalso. apply N. exists x; auto. }
    assert (Hc : c <> []) by (intros ->; apply Hy; reflexivity).
    destruct (pshift c r) as [|a q] eqn:E.
    { apply (f_equal (@length R)) in E. rewrite pshift_length in E by auto. destruct c; cbn in E; congruence. }
    assert (La : length q = (length c - 1)%nat).
    { apply (f_equal (@length R)) in E. rewrite pshift_length in E by auto. cbn in E; lia. }
    assert (Ha : a = 0).
    { pose proof (pshift_peval c r 0 Hc) as P. rewrite E, Rplus_0_r, peval_cons in P. lra. }
    assert (F : forall x, peval c x = (x - r) * peval q (x - r)).
    { intros x. pose proof (pshift_peval c r (x - r) Hc) as P. rewrite E, peval_cons, Ha in P.
      replace (r + (x - r)) with x in P by ring. lra. }
    destruct (IH q) as (l & Hl).
    { destruct c; cbn in *; [congruence|lia]. }
    { exists (y - r). intros Z. apply Hy. rewrite F, Z. ring. }
    exists (r :: map (fun t => t + r) l). intros x Hx. rewrite F in Hx. apply Rmult_integral in Hx.
    destruct Hx as [Hx|Hx]; [left; lra|right]. apply in_map_iff. exists (x - r). split; [ring|auto].
Qed.

(* ---- effective degree ---- *)
Lemma nmax_fold (l : list R) a : let m := fold_left nmax l a in
  (m = a \/ In m l) /\ a <= m /\ forall x, In x l -> x <= m.
Proof.
  cbv zeta. revert a; induction l as [|b l IH]; intros a; cbn [fold_left].
  - split; [auto|]. split; [lra|]. intros x [].
  - destruct (IH (nmax a b)) as (I1 & I2 & I3). rewrite nmax_R in I1, I2.
    rewrite nmax_R in *.
    split; [|split].
    + destruct I1 as [I1|I1]; [|right; right; auto]. rewrite I1.
      unfold Rmax. destruct (Rle_dec a b); [right; left; auto|left; auto].
    + pose proof (Rmax_l a b). lra.
    + intros x [<-|Hx]; [pose proof (Rmax_r a b); lra|auto].
Qed.
Lemma natmax_fold l a : let m := fold_left Nat.max l a in
  (m = a \/ In m l) /\ (a <= m)%nat /\ forall x, In x l -> (x <= m)%nat.
Proof.
  cbv zeta. revert a; induction l as [|b l IH]; intros a; cbn [fold_left].
  - split; [auto|]. split; [lia|]. intros x [].
  - destruct (IH (Nat.max a b)) as (I1 & I2 & I3). split; [|split].
    + destruct I1 as [I1|I1]; [|right; right; auto]. rewrite I1.
      destruct (Nat.max_dec a b) as [->| ->]; [left; auto|right; left; auto].
    + lia.
    + intros x [<-|Hx]; [lia|auto].
Qed.
Lemma rt_deg_full tol c n : 0 <= tol -> length c = S n ->
  (forall k, (k <= n)%nat -> tol * Rabs (nth k c 0) < Rabs (nth n c 0)) -> rt_deg tol c = n.
Proof.
  intros Ht HL H. unfold rt_deg. set (m := fold_left nmax (map nabs c) n0).
  assert (Hm : tol * m < Rabs (nth n c 0)).
  { destruct (nmax_fold (map nabs c) 0) as (I1 & _ & _). change (fold_left nmax (map nabs c) 0) with m in I1.
    destruct I1 as [I1|I1].
    - rewrite I1, Rmult_0_r. apply Rle_lt_trans with (tol * Rabs (nth n c 0)); [|apply H; lia].
      apply Rmult_le_pos; auto. apply Rabs_pos.
    - apply in_map_iff in I1. destruct I1 as (a & E & Ha). rewrite nabs_R in E.
      apply (In_nth _ _ 0) in Ha. destruct Ha as (k & Hk & <-). rewrite <- E. apply H. lia. }
  set (f := fun (a : R) k => if nltb (nmul tol m) (nabs a) then k else O).
  set (zs := zipw f c (seq 0 (length c))).
  assert (Hz : forall k, (k <= n)%nat -> nth k zs 0%nat = f (nth k c 0) k).
  { intros k Hk. unfold zs. rewrite (nth_zipw _ _ _ _ 0 0%nat) by (rewrite ?seq_length; lia).
    rewrite seq_nth by lia. reflexivity. }
  assert (Lz : length zs = S n) by (unfold zs; rewrite zipw_length, seq_length; lia).
  destruct (natmax_fold zs 0) as (I1 & I2 & I3). set (M := fold_left Nat.max zs 0%nat) in *.
  assert (M <= n)%nat.
  { destruct I1 as [->|I1]; [lia|]. apply (In_nth _ _ 0%nat) in I1. destruct I1 as (k & Hk & <-).
    rewrite Hz by lia. unfold f. destruct (nltb _ _); lia. }
  assert (n <= M)%nat.
  { replace n with (nth n zs 0%nat) at 1; [apply I3, nth_In; lia|].
    rewrite Hz by lia. unfold f. numR. rewrite nabs_R.
    destruct (Rltb_spec (tol * m) (Rabs (nth n c 0))); [reflexivity|lra]. }
  lia.
Qed.
Lemma rt_deg_two tol a b : 0 <= tol < 1 ->
  (rt_deg tol [a; b] <= 1)%nat /\ (rt_deg tol [a; b] = 1%nat <-> tol * Rabs a < Rabs b).
Proof.
  intros Ht. unfold rt_deg. cbn [map fold_left length seq zipw]. rewrite !nabs_R, !nmax_R. numR.
  set (m := Rmax (Rmax 0 (Rabs a)) (Rabs b)).
  assert (Hb : 0 <= Rabs b) by apply Rabs_pos. assert (Ha : 0 <= Rabs a) by apply Rabs_pos.
  assert (Em : m = Rmax (Rabs a) (Rabs b)) by (unfold m; rewrite (Rmax_right 0) by lra; reflexivity).
  assert (D : tol * m < Rabs b <-> tol * Rabs a < Rabs b).
  { rewrite Em. unfold Rmax. destruct (Rle_dec (Rabs a) (Rabs b)); [|tauto].
    assert (tol * Rabs a <= tol * Rabs b) by (apply Rmult_le_compat_l; lra).
    split; [lra|]. intros H1. assert (0 <= tol * Rabs a) by (apply Rmult_le_pos; lra).
    assert (0 < (1 - tol) * Rabs b) by (apply Rmult_lt_0_compat; lra). lra. }
  split.
  - destruct (Rltb _ _), (Rltb _ _); cbn; lia.
  - rewrite <- D. replace (if Rltb (tol * m) (Rabs a) then 0%nat else 0%nat) with 0%nat by (destruct (Rltb _ _); reflexivity).
    destruct (Rltb_spec (tol * m) (Rabs b)); cbn; split; intros; try lra; auto; discriminate.
Qed.

Lemma piece_gap_dx p i : pw_wf p -> piece_gap (pxk p) i = rt_dx p i.
Proof.
  intros W. pose proof (wf_nk p W) as Hn. unfold piece_gap, rt_dx. numR.
  destruct (pxk p) as [|a [|b r]] eqn:E; [cbn in Hn; lia|reflexivity|].
  destruct (Nat.leb_spec (length (a :: b :: r)) 1) as [H|H]; [cbn in H; lia|].
  set (l := a :: b :: r) in *. cbv zeta.
  replace (Nat.max 1 (Nat.min i (length l - 1)))
    with (if (i =? 0)%nat then 1%nat else if (i <? length l)%nat then i else (length l - 1)%nat); [reflexivity|].
  destruct (Nat.eqb_spec i 0); [lia|]. destruct (Nat.ltb_spec i (length l)); lia.
Qed.

(* ---- assembling the result ---- *)
Lemma roots_assemble p (raw : list R) tol D : pw_wf p -> 0 <= tol ->
  (length (pxk p) = 1%nat -> 1 <= D) ->
  (forall i, (S i < length (pxk p))%nat -> nth (S i) (pxk p) 0 - nth i (pxk p) 0 <= D) ->
  match (match nsort raw with
         | [] => Err ValueError
         | a :: r => Ok (a :: dedup tol (fun x => rt_dx p (ssearch (pxk p) x)) a r)
         end) with
  | Err e => e = ValueError /\ raw = []
  | Ok xs => incr xs /\ (forall x, In x xs -> In x raw) /\
      forall (S : R -> Prop), (forall x, In x raw -> S x) ->
      forall x, In x raw -> exists y, In y xs /\ stands_for S (tol * D) y x
  end.
Proof.
  intros W Ht H1 H2. pose proof (nsort_asc raw) as A. pose proof (fun y => nsort_In y raw) as I.
  destruct (nsort raw) as [|a r].
  - split; auto. destruct raw as [|b raw]; auto. exfalso. apply (I b). left; auto.
  - assert (Hdx : forall x, 0 < rt_dx p (ssearch (pxk p) x) <= D).
    { intros x. split; [apply rt_dx_pos; auto; apply ssearch_le|]. apply rt_dx_bound; auto. }
    split; [apply (dedup_sorted tol D); auto|]. split.
    + intros x [<-|Hx]; apply I; [left; auto|right]. eapply dedup_sub; eauto.
    + intros S HS x Hx. apply I in Hx.
      destruct (dedup_chain tol D (fun x => rt_dx p (ssearch (pxk p) x)) Ht Hdx a r A x Hx (a :: r)) as (y & Hy & C); auto.
      exists y. split; auto. unfold stands_for. clear Hx Hy. induction C as [u w (C1 & C2 & C3)| |].
      * apply rt_step. split; [apply HS, I; auto|]. split; [apply HS, I; auto|auto].
      * apply rt_refl.
      * eapply rt_trans; eauto.
Qed.
Lemma filter_false {A} (f : A -> bool) l : (forall x, In x l -> f x = false) -> filter f l = [].
Proof.
  induction l as [|a l IH]; intros H; cbn; [reflexivity|]. rewrite H by (left; auto).
  apply IH. intros; apply H; right; auto.
Qed.
Lemma filter_true {A} (f : A -> bool) l : (forall x, In x l -> f x = true) -> filter f l = l.
Proof.
  induction l as [|a l IH]; intros H; cbn; [reflexivity|]. rewrite H by (left; auto).
  f_equal. apply IH. intros; apply H; right; auto.
Qed.
Lemma existsb_In i l : existsb (Nat.eqb i) l = true <-> In i l.
Proof.
  rewrite existsb_exists. split.
  - intros (x & H & E). apply Nat.eqb_eq in E. subst; auto.
  - intros H. exists i. split; auto. apply Nat.eqb_refl.
Qed.

(* C51: piecewise linear functions *)
Theorem C51_linear_roots : forall eigreal (p : pwpoly R) (v tol D : R),
  pw_wf p -> pcl p = Pw -> csh (pc p) = [] -> cn (pc p) = 2%nat ->
  (forall x, continuity_pt (pw_val p []) x) ->
  (forall i, (i <= length (pxk p))%nat -> exists y, in_piece (pxk p) i y /\ pw_call p [] y <> Ok v) ->
  0 < tol < 1 ->
  (length (pxk p) = 1%nat -> 1 <= D) ->
  (forall i, (S i < length (pxk p))%nat -> nth (S i) (pxk p) 0 - nth i (pxk p) 0 <= D) ->
  let root x := pw_call p [] x = Ok v in
  match roots eigreal p v tol with
  | Ok xs => incr xs /\ (forall x, In x xs -> root x) /\
      forall x, root x -> within_reach tol (pxk p) x ->
        exists y, In y xs /\ stands_for root (tol * D) y x
  | Err e => e = ValueError /\ forall x, root x -> ~ within_reach tol (pxk p) x
  end.
Proof.
  intros eigreal p v tol D W HP Hs Hn Hc Hnz Ht HD1 HD2 root.
  assert (Hroot : forall x, root x <-> pw_val p [] x = v).
  { intros x. unfold root. rewrite pw_call_wf by auto. split; congruence. }
  set (nk := length (pxk p)) in *.
  set (a i := nth 0 (rt_c p v i) 0). set (b i := nth 1 (rt_c p v i) 0).
  assert (Hab : forall i, (i <= nk)%nat -> rt_c p v i = [a i; b i]).
  { intros i Hi. assert (L : length (rt_c p v i) = 2%nat).
    { unfold rt_c. rewrite scalec_length, rt_col_length by auto. auto. }
    unfold a, b. destruct (rt_c p v i) as [|q [|r [|]]]; cbn in L; try lia. reflexivity. }
  assert (Hpe : forall i s, (i <= nk)%nat -> peval (rt_c p v i) s = a i + s * b i).
  { intros i s Hi. rewrite Hab by auto. unfold peval; cbn. ring. }
  set (dg := fun i => rt_deg tol (rt_c p v i)).
  assert (Hdg : forall i, (i <= nk)%nat -> (dg i <= 1)%nat /\ (dg i = 1%nat <-> tol * Rabs (a i) < Rabs (b i))).
  { intros i Hi. unfold dg. rewrite Hab by auto. apply rt_deg_two. lra. }
  set (idx := filter (rt_maybe p v) (seq 0 (S nk))).
  assert (Hidx : forall i, In i idx <-> (i <= nk)%nat /\ rt_maybe p v i = true).
  { intros i. unfold idx. rewrite filter_In, in_seq. intuition lia. }
  assert (Hnl : rt_nonlinear eigreal p v idx dg = Ok []).
  { unfold rt_nonlinear. rewrite filter_false; [reflexivity|]. intros i Hi. apply Hidx in Hi.
    destruct (Hdg i) as (H & _); [tauto|]. apply Nat.ltb_ge. exact H. }
  (* signs kept by the rule of signs *)
  assert (Hsg : forall i, (i <= nk)%nat -> b i <> 0 -> rt_maybe p v i = true ->
    (i = 0%nat -> - a i / b i <= 0) /\ ((1 <= i)%nat -> 0 <= - a i / b i) /\ ((1 <= i < nk)%nat -> - a i / b i <= 1)).
  { intros i Hi Hb0 Hm. unfold rt_maybe in Hm. fold nk in Hm. apply andb_prop in Hm. destruct Hm as (M1 & M2).
    assert (D1 : forall u w, w <> 0 -> (u < 0 -> w < 0 -> False) -> (0 <= u -> 0 < w -> False) -> 0 <= - u / w).
    { intros u w Hw N1 N2. destruct (Rlt_dec u 0).
      - assert (0 < w) by (destruct (Rtotal_order w 0) as [?|[?|?]]; [exfalso; auto|lra|lra]).
        apply Rmult_le_pos; [lra|]. left. apply Rinv_0_lt_compat; auto.
      - assert (w < 0) by (destruct (Rtotal_order w 0) as [?|[?|?]]; [lra|lra|exfalso; apply N2; lra]).
        replace (- u / w) with (u * / - w) by (field; lra).
        apply Rmult_le_pos; [lra|]. left. apply Rinv_0_lt_compat; lra. }
    assert (D2 : forall u w, sgnchg [u; w] = true -> w <> 0 -> 0 <= - u / w).
    { intros u w S Hw. cbn in S. numR. apply D1; auto; intros H1 H2;
        destruct (Rltb_spec w 0), (Rltb_spec u 0); cbn in S; try discriminate; lra. }
    assert (U : forall dd, pshift (rt_col p v i) dd = [nth 0 (rt_col p v i) 0 + dd * nth 1 (rt_col p v i) 0; nth 1 (rt_col p v i) 0]).
    { intros dd. pose proof (rt_col_length p v W Hs i Hi) as L. rewrite Hn in L.
      destruct (rt_col p v i) as [|q [|r [|]]]; cbn in L; try lia.
      unfold pshift, taylor. cbn. numR. repeat (f_equal; try ring). }
    assert (A0 : a i = nth 0 (rt_col p v i) 0) by (unfold a, rt_c; rewrite scalec_nth; cbn; ring).
    assert (B0 : b i = nth 1 (rt_col p v i) 0 * rt_dx p i) by (unfold b, rt_c; rewrite scalec_nth; cbn; ring).
    split; [|split].
    - intros ->. destruct (Nat.eqb_spec 0 nk) as [E|_]; [pose proof (wf_nk p W) as E'; fold nk in E'; lia|].
      cbn [orb] in M2. unfold rt_up in M2.
      rewrite U in M2. numR. rewrite (wf_first p W) in M2. unfold scalec in M2. cbn [length seq zipw altern npow] in M2.
      numR. apply D2 in M2.
      + rewrite A0, B0. replace (- (nth 0 (pxk p) 0 - nth 0 (pxk p) 0)) with 0 in M2 by ring.
        replace (nth 0 (rt_col p v 0) 0 + (nth 0 (pxk p) 0 - nth 0 (pxk p) 0) * nth 1 (rt_col p v 0) 0) with (nth 0 (rt_col p v 0) 0) in M2 by ring.
        rewrite !Rmult_1_r in M2.
        replace (- nth 0 (rt_col p v 0) 0 / - (nth 1 (rt_col p v 0) 0 * rt_dx p 0)) with
          (- (- nth 0 (rt_col p v 0) 0 / (nth 1 (rt_col p v 0) 0 * rt_dx p 0))) in M2; [lra|].
        rewrite B0 in Hb0. field. split; intros Q; apply Hb0; rewrite Q; ring.
      + rewrite Rmult_1_r, <- B0. lra.
    - intros H1. destruct (Nat.eqb_spec i 0); [lia|]. cbn [orb] in M1. rewrite Hab in M1 by auto. apply D2; auto.
    - intros H1. destruct (Nat.eqb_spec i nk); [lia|]. cbn [orb] in M2. unfold rt_up in M2. rewrite U in M2. numR.
      assert (Ed : nth i (pxk p) 0 - nth i (pxk0 p) 0 = rt_dx p i).
      { rewrite rt_dx_mid by (fold nk; lia). destruct i as [|i]; [lia|]. rewrite pxk0_S. replace (S i - 1)%nat with i by lia. reflexivity. }
      rewrite Ed in M2. unfold scalec in M2. cbn [length seq zipw altern npow] in M2. numR.
      rewrite !Rmult_1_r in M2.
      replace (nth 0 (rt_col p v i) 0 + rt_dx p i * nth 1 (rt_col p v i) 0) with (a i + b i) in M2 by (rewrite A0, B0; ring).
      rewrite <- B0 in M2. apply D2 in M2; [|lra].
      replace (- (a i + b i) / - b i) with (1 - (- a i / b i)) in M2; [lra|]. field. auto. }
  set (lin := filter (fun i => (dg i =? 1)%nat) idx).
  assert (Hlin : forall i, In i lin <-> In i idx /\ dg i = 1%nat).
  { intros i. unfold lin. rewrite filter_In, Nat.eqb_eq. tauto. }
  assert (Hb : forall i, In i lin -> (i <= nk)%nat /\ rt_maybe p v i = true /\ b i <> 0).
  { intros i Hi. apply Hlin in Hi. destruct Hi as (Hi & E). apply Hidx in Hi. destruct Hi as (Hi & M).
    split; auto. split; auto. apply (Hdg i Hi) in E. intros Q. rewrite Q, Rabs_R0 in E.
    pose proof (Rmult_le_pos tol (Rabs (a i))). pose proof (Rabs_pos (a i)). lra. }
  set (raw := rt_knots p v ++ rt_linear p v idx dg ++ []).
  assert (Hraw : forall x, In x raw -> root x).
  { intros x Hx. apply Hroot. unfold raw in Hx. rewrite !in_app_iff in Hx.
    destruct Hx as [Hx|[Hx|[]]]; [apply knots_sound; auto|].
    unfold rt_linear in Hx. fold lin in Hx. apply in_map_iff in Hx. destruct Hx as (i & <- & Hi).
    apply filter_In in Hi. destruct Hi as (Hi & _). destruct (Hb i Hi) as (B1 & B2 & B3).
    destruct (Hsg i B1 B3 B2) as (S1 & S2 & S3). fold (a i) (b i). numR.
    apply piece_sound; auto. rewrite Hpe by auto. unfold a, b. numR. unfold b in B3. field. exact B3. }
  assert (Hcomp : forall x, root x -> within_reach tol (pxk p) x -> In x raw).
  { intros x Hx (R1 & R2). apply Hroot in Hx. unfold raw. rewrite !in_app_iff.
    destruct (is_knot_dec (pxk p) x) as [K|NK]; [left; apply knots_complete; auto|right; left].
    set (i := ssearch (pxk p) x).
    assert (Hin : inside (pxk p) i x) by (apply piece_inside; auto; apply ssearch_piece, W).
    assert (Hi : (i <= nk)%nat) by apply ssearch_le.
    destruct (piece_complete p v W HP Hs i x Hin Hx) as (M & Z & X0 & X1 & X2 & EX).
    { destruct (Hnz i Hi) as (y & Hy & Ny). exists y. split; auto. intros E. apply Ny. apply Hroot; auto. }
    set (xi := (x - nth i (pxk0 p) 0) / rt_dx p i) in *. pose proof (rt_dx_pos p W i Hi) as Hd.
    rewrite Hpe in Z by auto.
    assert (Hbi : b i <> 0).
    { intros Q. rewrite Q in Z. destruct (Hnz i Hi) as (y & Hy & Ny). apply Ny, Hroot.
      rewrite (val_piece p W HP i y Hy). pose proof (rt_c_peval p v W Hs i ((y - nth i (pxk0 p) 0) / rt_dx p i) Hi) as P.
      rewrite Hpe in P by auto. rewrite Q in P. 
      replace ((y - nth i (pxk0 p) 0) / rt_dx p i * rt_dx p i) with (y - nth i (pxk0 p) 0) in P by (field; lra). lra. }
    assert (Hxi : xi = - a i / b i) by (field_simplify_eq; auto; lra).
    assert (Hd1 : tol * Rabs xi < 1).
    { destruct i as [|i'] eqn:Ei.
      - rewrite Rabs_left by auto. rewrite (piece_gap_dx p 0 W) in R1. unfold xi. rewrite (wf_first p W).
        apply (Rmult_lt_reg_r (rt_dx p 0)); auto.
        replace (tol * - ((x - nth 0 (pxk p) 0) / rt_dx p 0) * rt_dx p 0) with (tol * (nth 0 (pxk p) 0 - x)) by (field; lra). lra.
      - specialize (X1 ltac:(lia)). rewrite Rabs_right by lra.
        destruct (Nat.eq_dec (S i') nk) as [E|N].
        + rewrite piece_gap_dx in R2 by auto. fold nk in R2. rewrite <- E in R2. replace (S i' - 1)%nat with i' in R2 by lia.
          unfold xi. rewrite pxk0_S. apply (Rmult_lt_reg_r (rt_dx p (S i'))); auto.
          replace (tol * ((x - nth i' (pxk p) 0) / rt_dx p (S i')) * rt_dx p (S i')) with (tol * (x - nth i' (pxk p) 0)) by (field; lra). lra.
        + specialize (X2 ltac:(fold nk; lia)). assert (tol * xi < 1 * 1) by (apply Rmult_gt_0_lt_compat; lra). lra. }
    assert (Hdi : dg i = 1%nat).
    { apply (Hdg i Hi). replace (a i) with (- (xi * b i)) by lra. rewrite Rabs_Ropp, Rabs_mult.
      assert (0 < Rabs (b i)) by (apply Rabs_pos_lt; auto).
      assert (tol * Rabs xi * Rabs (b i) < 1 * Rabs (b i)) by (apply Rmult_lt_compat_r; lra). lra. }
    assert (Hil : In i lin) by (apply Hlin; split; auto; apply Hidx; auto).
    unfold rt_linear. fold lin. apply in_map_iff. exists i. fold (a i) (b i). numR. split.
    { rewrite <- EX. rewrite Hxi. reflexivity. }
    apply filter_In. split; auto. unfold a, b in Hxi.
    match goal with |- context [existsb (Nat.eqb 0) lin] => destruct (existsb (Nat.eqb 0) lin) eqn:E0 end.
    - destruct (Nat.eqb_spec i 0) as [Ez|Nz]; numR; rewrite <- Hxi.
      + destruct (Rleb_spec xi 0); auto. exfalso. specialize (X0 Ez). lra.
      + destruct (Rleb_spec 0 xi); auto. exfalso. specialize (X1 ltac:(lia)). lra.
    - fold nk. assert (Nz : i <> 0%nat).
      { intros Q. rewrite Q in Hil. apply existsb_In in Hil. congruence. }
      specialize (X1 ltac:(lia)).
      destruct (existsb (Nat.eqb nk) lin) eqn:E1; numR; rewrite <- Hxi.
      + destruct (Rleb_spec 0 xi); [auto|lra].
      + assert (i <> nk) by (intros Q; rewrite Q in Hil; apply existsb_In in Hil; congruence).
        specialize (X2 ltac:(fold nk; lia)).
        destruct (Rleb_spec 0 xi); [|lra]. destruct (Rleb_spec xi 1); [reflexivity|lra]. }
  unfold roots. rewrite Hs, Hn. cbn [Nat.leb]. fold nk idx dg. rewrite Hnl. cbn [bind]. fold raw.
  pose proof (roots_assemble p raw tol D W ltac:(lra) HD1 HD2) as A.
  destruct (nsort raw) as [|z r].
  - split; [reflexivity|]. intros x Hx Hr. destruct A as (_ & A). pose proof (Hcomp x Hx Hr) as Q. rewrite A in Q. destruct Q.
  - destruct A as (A1 & A2 & A3). split; [exact A1|]. split; [intros; apply Hraw; auto|].
    intros x Hx Hr. apply A3; auto.
Qed.
Print Assumptions C51_linear_roots.

(* a tent: 1-|x-1| with the two lines extended, knots 0, 1, 2 *)
Definition ex_tent : pwpoly R :=
  PwP Pw [0; 0; 1; 2] (CArr 2 [] 4 (fun _ i => nth i [[0; 1]; [0; 1]; [1; -1]; [0; -1]] [])) None.
Ltac pieces3 := intros [|[|[|[|?]]]] ?; cbn in *; try lia.
Example ex_tent_wf : pw_wf ex_tent.
Proof.
  split; cbn; try lia; try reflexivity.
  - split; cbn; [lia|]. intros comp i _ Hi. destruct i as [|[|[|[|i]]]]; cbn; reflexivity || lia.
  - intros [|[|i]] Hi; cbn in *; [lra|lra|lia].
  - discriminate.
Qed.
Lemma val_cont p : pw_wf p -> pcl p = Pw ->
  (forall j, (j < length (pxk p))%nat -> match_at p [] j 0) -> forall x, continuity_pt (pw_val p []) x.
Proof.
  intros W HP Hm x. apply (cont_local _ (base p []) _ 1); [lra| |].
  - intros t _. rewrite pw_val_base, pw_reduce_Pw by auto. reflexivity.
  - apply base_continuous; auto. apply W.
Qed.
Example C51_case : exists xs, roots eig_wit ex_tent (1/2) (1/10^9) = Ok xs /\ In (1/2) xs.
Proof.
  assert (Hv : forall i x, in_piece (pxk ex_tent) i x ->
    pw_call ex_tent [] x = Ok (peval (nth i [[0; 1]; [0; 1]; [1; -1]; [0; -1]] []) (x - nth i (pxk0 ex_tent) 0))).
  { intros i x Hx. rewrite pw_call_wf by apply ex_tent_wf. f_equal.
    exact (val_piece ex_tent ex_tent_wf eq_refl i x Hx). }
  assert (Hp : forall i x, (i <= 3)%nat -> nth i [-1; 0; 1; 2] 0 < x < nth i [0; 1; 2; 3] 0 -> in_piece (pxk ex_tent) i x).
  { intros i x Hi Hx. split; [cbn; lia|]. destruct i as [|[|[|[|i]]]]; [| | | |lia]; cbn in *;
      (split; intros [|[|[|j]]] Hj; cbn; try lia; try lra). }
  pose proof (C51_linear_roots eig_wit ex_tent (1/2) (1/10^9) 1 ex_tent_wf eq_refl eq_refl eq_refl) as T.
  destruct (roots eig_wit ex_tent (1/2) (1/10^9)) as [xs|e].
  - exists xs. split; auto. destruct T as (_ & T1 & T2); [| |lra|lra| |].
    + apply val_cont; [apply ex_tent_wf|reflexivity|]. cbn [pxk ex_tent pxk0 tl length].
      intros [|[|[|j]]] Hj; try lia; unfold match_at; cbn; ring.
    + intros i Hi. exists (nth i [-1; 0; 1; 2] 0 + 1/4). split.
      * apply Hp; [exact Hi|]. destruct i as [|[|[|[|i]]]]; cbn in *; try lra; lia.
      * rewrite (Hv i). { destruct i as [|[|[|[|i]]]]; cbn in *; try lia; unfold peval; cbn; intros Q; inversion Q; lra. }
        apply Hp; [exact Hi|]. destruct i as [|[|[|[|i]]]]; cbn in *; try lra; lia.
    + intros [|[|i]] Hi; cbn in *; [lra|lra|lia].
    + assert (R12 : pw_call ex_tent [] (1/2) = Ok (1/2)).
      { rewrite (Hv 1%nat); [|apply Hp; [lia|cbn; lra]]. unfold peval; cbn. f_equal; lra. }
      destruct (T2 (1/2) R12) as (y & Hy & C).
      { split; unfold piece_gap; cbn; lra. }
      assert (y = 1/2); [|subst; auto].
      assert (G : forall u w, clos_refl_trans R (near_dup (fun x => pw_call ex_tent [] x = Ok (1/2)) (1/10^9 * 1)) u w -> w = 1/2 -> u = 1/2).
      { intros u w Q. apply clos_rt_rt1n in Q. induction Q as [|u z w (Q1 & Q2 & Q3) Q IH]; auto. intros Hw.
        rewrite (IH Hw) in Q3. assert (0 < u < 1) by (cbn in Q3; lra). rewrite (Hv 1%nat) in Q1 by (apply Hp; [lia|cbn; lra]).
        unfold peval in Q1; cbn in Q1. injection Q1. intros. lra. }
      apply (G y (1/2)); auto.
  - exfalso. destruct T as (_ & T); [| |lra|lra| |].
    + apply val_cont; [apply ex_tent_wf|reflexivity|]. cbn [pxk ex_tent pxk0 tl length].
      intros [|[|[|j]]] Hj; try lia; unfold match_at; cbn; ring.
    + intros i Hi. exists (nth i [-1; 0; 1; 2] 0 + 1/4). split.
      * apply Hp; [exact Hi|]. destruct i as [|[|[|[|i]]]]; cbn in *; try lra; lia.
      * rewrite (Hv i). { destruct i as [|[|[|[|i]]]]; cbn in *; try lia; unfold peval; cbn; intros Q; inversion Q; lra. }
        apply Hp; [exact Hi|]. destruct i as [|[|[|[|i]]]]; cbn in *; try lra; lia.
    + intros [|[|i]] Hi; cbn in *; [lra|lra|lia].
    + apply (T (1/2)).
      * rewrite (Hv 1%nat); [|apply Hp; [lia|cbn; lra]]. unfold peval; cbn. f_equal; lra.
      * split; unfold piece_gap; cbn; lra.
Qed.

(* C52: general degree *)
Lemma filter_seq_ge f a m pos : (pos < length (filter f (seq a m)))%nat ->
  (a + pos <= nth pos (filter f (seq a m)) 0)%nat.
Proof.
  revert a pos; induction m as [|m IH]; intros a pos H; cbn [seq filter] in *; [cbn in H; lia|].
  destruct (f a).
  - destruct pos as [|pos]; cbn [nth]; [lia|]. cbn [length] in H. specialize (IH (S a) pos ltac:(lia)). lia.
  - specialize (IH (S a) pos H). lia.
Qed.
(* the coefficients, with value subtracted, of the polynomial on piece i *)
Definition coef_minus (p : pwpoly R) (v : R) (i k : nat) : R :=
  nth k (ccol (pc p) [] i) 0 - (if (k =? 0)%nat then v else 0).

Theorem C52_roots_partial : forall eigreal (p : pwpoly R) (v tol D : R) (n : nat),
  eig_spec eigreal ->
  pw_wf p -> pcl p = Pw -> csh (pc p) = [] -> cn (pc p) = S n -> (2 <= n)%nat ->
  (forall x, continuity_pt (pw_val p []) x) ->
  0 <= tol ->
  (forall i k, (i <= length (pxk p))%nat -> (k <= n)%nat ->
     tol * Rabs (coef_minus p v i k) * piece_gap (pxk p) i ^ k <
     Rabs (coef_minus p v i n) * piece_gap (pxk p) i ^ n) ->
  (length (pxk p) = 1%nat -> 1 <= D) ->
  (forall i, (S i < length (pxk p))%nat -> nth (S i) (pxk p) 0 - nth i (pxk p) 0 <= D) ->
  let root x := pw_call p [] x = Ok v in
  let bound := nth (length (pxk p) - 1) (pxk p) 0 + piece_gap (pxk p) (length (pxk p)) in
  match roots eigreal p v tol with
  | Ok xs => incr xs /\ (forall x, In x xs -> root x) /\
      forall x, root x -> x <= bound -> exists y, In y xs /\ stands_for root (tol * D) y x
  | Err e => e = ValueError /\ forall x, root x -> bound < x
  end.
Proof.
  intros eigreal p v tol D n Heig W HP Hs Hn Hn2 Hc Ht Hdeg HD1 HD2 root bound.
  assert (Hroot : forall x, root x <-> pw_val p [] x = v).
  { intros x. unfold root. rewrite pw_call_wf by auto. split; congruence. }
  set (nk := length (pxk p)) in *.
  set (dg := fun i => rt_deg tol (rt_c p v i)).
  assert (Hlen : forall i, (i <= nk)%nat -> length (rt_c p v i) = S n).
  { intros i Hi. unfold rt_c. rewrite scalec_length, rt_col_length by auto. auto. }
  assert (Hcm : forall i k, (i <= nk)%nat -> nth k (rt_c p v i) 0 = coef_minus p v i k * rt_dx p i ^ k).
  { intros i k Hi. unfold rt_c. rewrite scalec_nth. f_equal. unfold rt_col, coef_minus.
    pose proof (col_len p W Hs i Hi) as L. rewrite Hn in L.
    destruct (ccol (pc p) [] i) as [|a r]; [cbn in L; lia|]. destruct k; cbn; numR; ring. }
  assert (Hlt : forall i k, (i <= nk)%nat -> (k <= n)%nat -> tol * Rabs (nth k (rt_c p v i) 0) < Rabs (nth n (rt_c p v i) 0)).
  { intros i k Hi Hk. specialize (Hdeg i k Hi Hk). rewrite piece_gap_dx in Hdeg by auto.
    rewrite !Hcm by auto. rewrite !Rabs_mult. pose proof (rt_dx_pos p W i Hi) as Hd.
    rewrite !(Rabs_right (rt_dx p i ^ _)) by (apply Rle_ge, pow_le; lra). lra. }
  assert (Hdg : forall i, (i <= nk)%nat -> dg i = n).
  { intros i Hi. unfold dg. apply rt_deg_full; auto. }
  assert (Hlead : forall i, (i <= nk)%nat -> nth n (rt_c p v i) 0 <> 0).
  { intros i Hi Q. specialize (Hlt i n Hi (le_n _)). rewrite Q, Rabs_R0 in Hlt. lra. }
  set (idx := filter (rt_maybe p v) (seq 0 (S nk))).
  assert (Hidx : forall i, In i idx <-> (i <= nk)%nat /\ rt_maybe p v i = true).
  { intros i. unfold idx. rewrite filter_In, in_seq. intuition lia. }
  assert (Hge : forall pos, (pos < length idx)%nat -> (pos <= nth pos idx 0 <= nk)%nat).
  { intros pos Hp. split; [apply (filter_seq_ge _ 0); auto|]. apply Hidx, nth_In; auto. }
  assert (Hz0 : rt_maybe p v 0 = true -> nth 0 idx 0%nat = 0%nat).
  { intros M. unfold idx. cbn [seq filter]. rewrite M. reflexivity. }
  assert (Heigc : forall i z, (i <= nk)%nat -> (In z (eigreal n (companion n (rt_c p v i))) <-> peval (rt_c p v i) z = 0)).
  { intros i z Hi. etransitivity; [apply Heig; [lia|]|apply companion_eigen; auto; lia].
    destruct (finite_zeros (S n) (rt_c p v i)) as (l & Hl).
    - rewrite Hlen by auto. lia.
    - destruct (excluded_middle_informative (exists x, peval (rt_c p v i) x <> 0)) as [|N]; auto. exfalso.
      apply (Hlead i Hi). assert (F : Forall (fun a => a = 0) (rt_c p v i)).
      { apply peval_zero_coeffs. intros x. destruct (Req_dec (peval (rt_c p v i) x) 0); auto. exfalso; apply N; exists x; auto. }
      rewrite Forall_forall in F. apply F. apply nth_In. rewrite Hlen by auto. lia.
    - exists l. intros y Hy. apply Hl. apply companion_eigen in Hy; auto; lia. }
  set (nl := filter (fun i => (1 <? dg i)%nat) idx).
  assert (Hnl : nl = idx).
  { unfold nl. apply filter_true. intros i Hi. apply Hidx in Hi. rewrite Hdg by tauto. apply Nat.ltb_lt. lia. }
  assert (Hlin : rt_linear p v idx dg = []).
  { unfold rt_linear. rewrite (filter_false (fun i => (dg i =? 1)%nat) idx); [reflexivity|].
    intros i Hi. apply Hidx in Hi. rewrite Hdg by tauto. apply Nat.eqb_neq. lia. }
  set (ok := fun pos x =>
    if ((pos =? 0)%nat && existsb (Nat.eqb 0) idx)%bool then Rleb x 0
    else if ((pos <? nk)%nat || negb (existsb (Nat.eqb nk) idx))%bool then (Rleb 0 x && Rleb x 1)%bool
    else Rleb 0 x).
  set (g := fun pos => map (fun x => x * rt_dx p (nth pos idx 0%nat) + nth (nth pos idx 0%nat) (pxk0 p) 0)
                 (filter (ok pos) (eigreal n (companion n (rt_c p v (nth pos idx 0%nat)))))).
  set (xn := concat (map g (seq 0 (length idx)))).
  assert (Hxn : rt_nonlinear eigreal p v idx dg = Ok xn).
  { unfold rt_nonlinear. fold nl. rewrite Hnl. erewrite mapM_ok with (g := g); [reflexivity|].
    intros pos Hp. apply in_seq in Hp. destruct (Hge pos ltac:(lia)) as (G1 & G2).
    rewrite Hdg by auto. destruct (Nat.eqb_spec n 0); [lia|]. numR.
    destruct (Reqb_spec (nth n (rt_c p v (nth pos idx 0%nat)) 0) 0) as [Q|_]; [exfalso; apply (Hlead (nth pos idx 0%nat) G2 Q)|].
    reflexivity. }
  assert (Hin : forall x, In x xn <-> exists pos xi, (pos < length idx)%nat /\
    peval (rt_c p v (nth pos idx 0%nat)) xi = 0 /\ ok pos xi = true /\
    x = xi * rt_dx p (nth pos idx 0%nat) + nth (nth pos idx 0%nat) (pxk0 p) 0).
  { intros x. unfold xn. rewrite in_concat. split.
    - intros (l & Hl & Hx). apply in_map_iff in Hl. destruct Hl as (pos & <- & Hp). apply in_seq in Hp.
      unfold g in Hx. apply in_map_iff in Hx. destruct Hx as (xi & <- & Hx). apply filter_In in Hx.
      exists pos, xi. split; [lia|]. split; [|tauto]. apply Heigc; [|tauto]. apply Hge. lia.
    - intros (pos & xi & Hp & Z & O & ->). exists (g pos). split.
      + apply in_map. apply in_seq. lia.
      + unfold g. apply in_map_iff. exists xi. split; auto. apply filter_In. split; auto. apply Heigc; auto. apply Hge; auto. }
  set (raw := rt_knots p v ++ [] ++ xn).
  assert (Hraw : forall x, In x raw -> root x).
  { intros x Hx. apply Hroot. unfold raw in Hx. rewrite !in_app_iff in Hx.
    destruct Hx as [Hx|[[]|Hx]]; [apply knots_sound; auto|].
    apply Hin in Hx. destruct Hx as (pos & xi & Hp & Z & O & ->). destruct (Hge pos Hp) as (G1 & G2).
    set (i := nth pos idx 0%nat) in *. assert (Hi : In i idx) by (apply nth_In; auto).
    unfold ok in O. apply piece_sound; auto.
    - intros E. assert (pos = 0)%nat by lia. subst pos.
      assert (existsb (Nat.eqb 0) idx = true) as E0 by (apply existsb_In; rewrite <- E; auto).
      rewrite E0 in O. cbn in O. destruct (Rleb_spec xi 0); [auto|discriminate].
    - intros H1. destruct (Nat.eqb_spec pos 0) as [E|_].
      + destruct (existsb (Nat.eqb 0) idx) eqn:E0.
        * exfalso. apply existsb_In, Hidx in E0. unfold i in H1. rewrite E, Hz0 in H1 by tauto. lia.
        * cbn [andb] in O. destruct (_ || _)%bool; [apply andb_prop in O; destruct O as (O & _)|];
            destruct (Rleb_spec 0 xi); auto; discriminate.
      + cbn [andb] in O. destruct (_ || _)%bool; [apply andb_prop in O; destruct O as (O & _)|];
            destruct (Rleb_spec 0 xi); auto; discriminate.
    - intros H1. destruct (((pos =? 0)%nat && existsb (Nat.eqb 0) idx)%bool) eqn:E0.
      + destruct (Rleb_spec xi 0); [lra|discriminate].
      + destruct (Nat.ltb_spec pos nk); [|fold nk in H1; lia]. cbn [orb] in O. apply andb_prop in O. destruct O as (_ & O).
        destruct (Rleb_spec xi 1); [auto|discriminate]. }
  assert (Hcomp : forall x, root x -> x <= bound -> In x raw).
  { intros x Hx Hb. apply Hroot in Hx. unfold raw. rewrite !in_app_iff.
    destruct (is_knot_dec (pxk p) x) as [K|NK]; [left; apply knots_complete; auto|right; right].
    set (i := ssearch (pxk p) x).
    assert (Hins : inside (pxk p) i x) by (apply piece_inside; auto; apply ssearch_piece, W).
    assert (Hi : (i <= nk)%nat) by apply ssearch_le.
    destruct (piece_complete p v W HP Hs i x Hins Hx) as (M & Z & X0 & X1 & X2 & EX).
    { destruct (excluded_middle_informative (exists y, in_piece (pxk p) i y /\ pw_val p [] y <> v)) as [|N]; auto. exfalso.
      (* the piece would have infinitely many zeros *)
      destruct (finite_zeros (S n) (rt_c p v i)) as (l & Hl).
      - rewrite Hlen by auto. lia.
      - destruct (excluded_middle_informative (exists x, peval (rt_c p v i) x <> 0)) as [|N']; auto. exfalso.
        apply (Hlead i Hi). assert (F : Forall (fun a => a = 0) (rt_c p v i)).
        { apply peval_zero_coeffs. intros y. destruct (Req_dec (peval (rt_c p v i) y) 0); auto. exfalso; apply N'; exists y; auto. }
        rewrite Forall_forall in F. apply F. apply nth_In. rewrite Hlen by auto. lia.
      - destruct (inside_open _ _ _ Hins) as (e & He & Ho). pose proof (rt_dx_pos p W i Hi) as Hd.
        assert (G : forall t, Rabs (t - x) < e -> In ((t - nth i (pxk0 p) 0) / rt_dx p i) l).
        { intros t Htt. apply Hl. rewrite rt_c_peval by auto.
          replace ((t - nth i (pxk0 p) 0) / rt_dx p i * rt_dx p i) with (t - nth i (pxk0 p) 0) by (field; lra).
          rewrite <- (val_piece p W HP i t) by (apply inside_piece; auto).
          destruct (Req_dec (pw_val p [] t) v) as [->|Q]; [ring|]. exfalso. apply N. exists t. split; auto.
          apply inside_piece; auto. }
        set (L := map (fun k => (x + e * INR (S k) / (2 * INR (S (length l))) - nth i (pxk0 p) 0) / rt_dx p i) (seq 0 (S (length l)))).
        assert (ND : NoDup L).
        { apply Injective_map_NoDup; [|apply seq_NoDup]. intros k k' E.
          assert (E' : e * INR (S k) / (2 * INR (S (length l))) = e * INR (S k') / (2 * INR (S (length l)))).
          { apply (f_equal (fun z => z * rt_dx p i)) in E. unfold Rdiv in E at 1. rewrite Rmult_assoc, Rinv_l, Rmult_1_r in E by lra.
            unfold Rdiv in E at 2. rewrite Rmult_assoc, Rinv_l, Rmult_1_r in E by lra. lra. }
          assert (Hpos : 0 < INR (S (length l))) by (apply lt_0_INR; lia).
          assert (INR (S k) = INR (S k')).
          { apply (Rmult_eq_reg_l (e / (2 * INR (S (length l))))).
            - unfold Rdiv in *. lra.
            - apply Rgt_not_eq. apply Rdiv_lt_0_compat; lra. }
          apply INR_eq in H. lia. }
        assert (Inc : incl L l).
        { intros z Hz. apply in_map_iff in Hz. destruct Hz as (k & <- & Hk). apply in_seq in Hk. apply G.
          assert (Hpos : 0 < INR (S (length l))) by (apply lt_0_INR; lia).
          assert (Hk' : 0 < INR (S k) <= INR (S (length l))).
          { split; [apply lt_0_INR; lia|apply le_INR; lia]. }
          replace (x + e * INR (S k) / (2 * INR (S (length l))) - x) with (e * INR (S k) / (2 * INR (S (length l)))) by ring.
          rewrite Rabs_right.
          - apply (Rmult_lt_reg_r (2 * INR (S (length l)))); [lra|].
            replace (e * INR (S k) / (2 * INR (S (length l))) * (2 * INR (S (length l)))) with (e * INR (S k)) by (field; lra).
            assert (e * INR (S k) <= e * INR (S (length l))) by (apply Rmult_le_compat_l; lra).
            assert (0 < e * INR (S (length l))) by (apply Rmult_lt_0_compat; lra). lra.
          - apply Rle_ge. left. apply Rdiv_lt_0_compat; [apply Rmult_lt_0_compat; lra|lra]. }
        pose proof (NoDup_incl_length ND Inc) as LL. unfold L in LL. rewrite map_length, seq_length in LL. lia. }
    set (xi := (x - nth i (pxk0 p) 0) / rt_dx p i) in *. pose proof (rt_dx_pos p W i Hi) as Hd.
    assert (Hii : In i idx) by (apply Hidx; auto).
    assert (Hup : (1 <= i)%nat -> xi <= 1).
    { intros H1. destruct (Nat.eq_dec i nk) as [E|N]; [|left; apply X2; fold nk; lia].
      unfold bound in Hb. rewrite piece_gap_dx in Hb by auto. rewrite <- E in Hb.
      unfold xi. destruct i as [|i'] eqn:Ei; [lia|]. rewrite pxk0_S. replace (S i' - 1)%nat with i' in Hb by lia.
      apply (Rmult_le_reg_r (rt_dx p (S i'))); auto.
      replace ((x - nth i' (pxk p) 0) / rt_dx p (S i') * rt_dx p (S i')) with (x - nth i' (pxk p) 0) by (field; lra). lra. }
    apply (In_nth _ _ 0%nat) in Hii. destruct Hii as (pos & Hp & Epos).
    destruct (Nat.eq_dec i 0) as [E|N0].
    - apply Hin. assert (M0 : rt_maybe p v 0 = true) by (rewrite <- E; exact M).
      assert (Ei0 : nth 0 idx 0%nat = i) by (rewrite E; apply Hz0; exact M0).
      exists 0%nat, xi. rewrite Ei0. split; [lia|]. split; auto. split; [|auto].
      unfold ok. replace (existsb (Nat.eqb 0) idx) with true
        by (symmetry; apply existsb_In; apply Hidx; split; [lia|auto]).
      cbn [Nat.eqb andb].
      destruct (Rleb_spec xi 0); auto. exfalso. specialize (X0 E). lra.
    - apply Hin. exists pos, xi. rewrite Epos. split; [auto|]. split; auto. split; [|auto].
      specialize (X1 ltac:(lia)). specialize (Hup ltac:(lia)).
      unfold ok. destruct (((pos =? 0)%nat && existsb (Nat.eqb 0) idx)%bool) eqn:E0.
      + exfalso. apply andb_prop in E0. destruct E0 as (E1 & E2). apply Nat.eqb_eq in E1. apply existsb_In, Hidx in E2.
        subst pos. rewrite Hz0 in Epos by tauto. lia.
      + destruct (Rleb_spec 0 xi); [|lra]. destruct (Rleb_spec xi 1); [|lra]. destruct (_ || _)%bool; reflexivity. }
  unfold roots. rewrite Hs, Hn. destruct (Nat.leb_spec (S n) 1); [lia|]. fold nk idx dg. rewrite Hxn, Hlin. cbn [bind]. fold raw.
  pose proof (roots_assemble p raw tol D W Ht HD1 HD2) as A.
  destruct (nsort raw) as [|z r].
  - split; [reflexivity|]. intros x Hx. destruct A as (_ & A). apply Rnot_le_lt. intros Hr.
    pose proof (Hcomp x Hx Hr) as Q. rewrite A in Q. destruct Q.
  - destruct A as (A1 & A2 & A3). split; [exact A1|]. split; [intros; apply Hraw; auto|].
    intros x Hx Hr. apply A3; auto.
Qed.
Print Assumptions C52_roots_partial.

(* x^2 on the knots 0, 1: the roots of x^2 = 1/4 are found *)
Definition ex_sq : pwpoly R :=
  PwP Pw [0; 0; 1] (CArr 3 [] 3 (fun _ i => nth i [[0; 0; 1]; [0; 0; 1]; [1; 2; 1]] [])) None.
Ltac wf2 := split; cbn; try lia; try reflexivity; try discriminate;
  [split; cbn; [lia|]; intros comp i _ Hi; destruct i as [|[|[|i]]]; cbn; reflexivity || lia
  |intros [|i] Hi; cbn in *; [lra|lia]].
Example ex_sq_wf : pw_wf ex_sq.
Proof. wf2. Qed.
Ltac cont2 W := apply val_cont; [apply W|reflexivity|]; cbn; intros [|[|j]] Hj; try lia;
  unfold match_at; cbn; ring.
(* value on piece i, for knots 0, 1 *)
Lemma val2 p i x : pw_wf p -> pcl p = Pw -> pxk0 p = [0; 0; 1] ->
  match i with O => x <= 0 | S O => 0 < x <= 1 | S (S O) => 1 < x | _ => False end ->
  pw_call p [] x = Ok (peval (ccol (pc p) [] i) (x - nth i [0; 0; 1] 0)).
Proof.
  intros W HP E Hx. rewrite pw_call_wf by auto. f_equal. rewrite <- E.
  apply (val_piece p W HP). unfold pxk. rewrite E. cbn [tl].
  destruct i as [|[|[|i]]]; [| | |tauto]; (split; [cbn; lia|]; split; intros [|[|j]] Hj; cbn in *; try lia; lra).
Qed.
Example C52_case : exists xs y, roots eig_wit ex_sq (1/4) 0 = Ok xs /\ In y xs /\ y = -1/2.
Proof.
  pose proof (C52_roots_partial eig_wit ex_sq (1/4) 0 1 2 eig_spec_nonvacuous ex_sq_wf eq_refl eq_refl eq_refl (le_n _)) as T.
  assert (Hr : pw_call ex_sq [] (-1/2) = Ok (1/4)).
  { rewrite (val2 _ 0) by (apply ex_sq_wf || reflexivity || lra). unfold peval; cbn. f_equal; lra. }
  assert (Hb : -1/2 <= nth (length (pxk ex_sq) - 1) (pxk ex_sq) 0 + piece_gap (pxk ex_sq) (length (pxk ex_sq)))
    by (cbn; lra).
  destruct (roots eig_wit ex_sq (1/4) 0) as [xs|e].
  - destruct T as (_ & T1 & T2); [cont2 ex_sq_wf|lra| |cbn; lra| |].
    + intros i k Hi Hk. rewrite !Rmult_0_l. cbn in Hi. unfold coef_minus, piece_gap.
      destruct i as [|[|[|i]]]; cbn; try lia; rewrite Rabs_right; lra.
    + intros [|i] Hi; cbn in *; [lra|lia].
    + destruct (T2 (-1/2) Hr Hb) as (y & Hy & C). exists xs, y. split; auto. split; auto.
      unfold stands_for in C. clear - C.
      remember (-1/2) as z eqn:Ez. apply clos_rt_rt1n in C. induction C as [|u w z (_ & _ & C1) C IH]; auto.
      rewrite <- (IH Ez). lra.
  - exfalso. destruct T as (_ & T); [cont2 ex_sq_wf|lra| |cbn; lra| |].
    + intros i k Hi Hk. rewrite !Rmult_0_l. cbn in Hi. unfold coef_minus, piece_gap.
      destruct i as [|[|[|i]]]; cbn; try lia; rewrite Rabs_right; lra.
    + intros [|i] Hi; cbn in *; [lra|lia].
    + specialize (T (-1/2) Hr). lra.
Qed.

(* evaluation of the model on concrete data *)
Ltac rsimpl := cbn -[Rplus Rmult Rminus Rdiv Ropp Rinv IZR Rltb Rleb Reqb Rabs Rmax pow nofZ]; numR.
Ltac rcmp := repeat (rsimpl;
  match goal with
  | |- context [Rltb ?a ?b] =>
      first [replace (Rltb a b) with true by (destruct (Rltb_spec a b); [reflexivity|exfalso; lra])
            |replace (Rltb a b) with false by (destruct (Rltb_spec a b); [exfalso; lra|reflexivity])]
  | |- context [Rleb ?a ?b] =>
      first [replace (Rleb a b) with true by (destruct (Rleb_spec a b); [reflexivity|exfalso; lra])
            |replace (Rleb a b) with false by (destruct (Rleb_spec a b); [exfalso; lra|reflexivity])]
  end); rsimpl.
Lemma roots_parts eigreal (p : pwpoly R) v tol idx kn li nlv : csh (pc p) = [] -> (2 <= cn (pc p))%nat ->
  filter (rt_maybe p v) (seq 0 (S (length (pxk p)))) = idx -> rt_knots p v = kn ->
  rt_linear p v idx (fun i => rt_deg tol (rt_c p v i)) = li ->
  rt_nonlinear eigreal p v idx (fun i => rt_deg tol (rt_c p v i)) = Ok nlv ->
  roots eigreal p v tol =
    match nsort (kn ++ li ++ nlv) with
    | [] => Err ValueError
    | a :: r => Ok (a :: dedup tol (fun x => rt_dx p (ssearch (pxk p) x)) a r)
    end.
Proof.
  intros Hs Hn E1 E2 E3 E4. unfold roots. rewrite Hs. destruct (Nat.leb_spec (cn (pc p)) 1); [lia|].
  rewrite E1, E2, E3, E4. reflexivity.
Qed.
Definition ex_one : pwpoly R :=
  PwP Pw [0; 0; 1] (CArr 2 [] 3 (fun _ i => nth i [[1; 0]; [1; 0]; [1; 0]] [])) None.
Example ex_one_wf : pw_wf ex_one.
Proof. wf2. Qed.
(* Without any root an exception is raised, not an empty array returned *)
Theorem C52_no_root_refuted : exists p : pwpoly R,
  pw_wf p /\ pcl p = Pw /\ csh (pc p) = [] /\ (forall x, continuity_pt (pw_val p []) x) /\
  (forall x, pw_call p [] x <> Ok 0) /\
  forall eigreal, roots eigreal p 0 (1/10^9) = Err ValueError.
Proof.
  exists ex_one. split; [apply ex_one_wf|]. split; [reflexivity|]. split; [reflexivity|].
  split; [cont2 ex_one_wf|]. split.
  - intros x H. destruct (Rle_dec x 0); [|destruct (Rle_dec x 1)];
      [rewrite (val2 _ 0) in H|rewrite (val2 _ 1) in H|rewrite (val2 _ 2) in H];
      try apply ex_one_wf; try reflexivity; try lra; cbn in H; unfold peval in H; cbn in H; injection H; lra.
  - intros eigreal. rewrite (roots_parts eigreal ex_one 0 _ [] [] [] []); [reflexivity|reflexivity|cbn; lia| | |reflexivity|reflexivity].
    + cbn [ex_one pxk pxk0 tl length seq filter].
      replace (rt_maybe ex_one 0 0) with false by (unfold rt_maybe; rcmp; reflexivity).
      replace (rt_maybe ex_one 0 1) with false by (unfold rt_maybe; rcmp; reflexivity).
      replace (rt_maybe ex_one 0 2) with false by (unfold rt_maybe; rcmp; reflexivity).
      reflexivity.
    + unfold rt_knots. rcmp. reflexivity.
Qed.
Print Assumptions C52_no_root_refuted.

(* (x-5)(x-6) on the knots 0, 1: the roots are further than one interval beyond
   the last knot and are lost *)
Definition ex_far : pwpoly R :=
  PwP Pw [0; 0; 1] (CArr 3 [] 3 (fun _ i => nth i [[30; -11; 1]; [30; -11; 1]; [20; -9; 1]] [])) None.
Example ex_far_wf : pw_wf ex_far.
Proof. wf2. Qed.
Theorem C52_far_root_refuted : exists p : pwpoly R,
  pw_wf p /\ pcl p = Pw /\ csh (pc p) = [] /\ (forall x, continuity_pt (pw_val p []) x) /\
  pw_call p [] 5 = Ok 0 /\ pw_call p [] 6 = Ok 0 /\
  forall eigreal, eig_spec eigreal -> roots eigreal p 0 (1/10^9) = Err ValueError.
Proof.
  exists ex_far. split; [apply ex_far_wf|]. split; [reflexivity|]. split; [reflexivity|].
  split; [cont2 ex_far_wf|]. split; [|split].
  - rewrite (val2 _ 2) by (apply ex_far_wf || reflexivity || lra). unfold peval; cbn. f_equal; ring.
  - rewrite (val2 _ 2) by (apply ex_far_wf || reflexivity || lra). unfold peval; cbn. f_equal; ring.
  - intros eigreal He.
    assert (Ec : rt_c ex_far 0 2 = [20; -9; 1]).
    { unfold rt_c, rt_dx, scalec. rsimpl. repeat (f_equal; try ring). }
    assert (Ed : rt_deg (1/10^9) (rt_c ex_far 0 2) = 2%nat).
    { rewrite Ec. apply rt_deg_full; [lra|reflexivity|]. intros [|[|[|k]]] Hk; try lia; cbn [nth];
        rewrite ?(Rabs_right 1), ?(Rabs_right 20), ?(Rabs_left (-9)) by lra; lra. }
    rewrite (roots_parts eigreal ex_far 0 _ [2%nat] [] [] []); [reflexivity|reflexivity|cbn; lia| | | |].
    + cbn [ex_far pxk pxk0 tl length seq filter].
      replace (rt_maybe ex_far 0 0) with false by (unfold rt_maybe; rcmp; reflexivity).
      replace (rt_maybe ex_far 0 1) with false by (unfold rt_maybe; rcmp; reflexivity).
      replace (rt_maybe ex_far 0 2) with true by (unfold rt_maybe; rcmp; reflexivity).
      reflexivity.
    + unfold rt_knots. rcmp. reflexivity.
    + unfold rt_linear. cbn [filter]. rewrite Ed. reflexivity.
    + unfold rt_nonlinear. cbn [filter]. rewrite Ed. cbn [Nat.ltb Nat.leb length seq mapM nth]. rewrite Ed, Ec.
      cbn [Nat.eqb nth]. numR. destruct (Reqb_spec 1 0); [lra|].
      rewrite filter_false; [reflexivity|]. intros z Hz.
      apply He in Hz; [|lia|].
      * apply companion_eigen in Hz; [|lia|reflexivity|cbn; lra]. cbn [existsb Nat.eqb orb andb]. rsimpl.
        destruct (Rleb_spec z 1) as [Hle|]; [|apply andb_false_r]. exfalso.
        unfold peval in Hz; cbn in Hz. assert ((z - 4) * (z - 5) = 0) by lra.
        apply Rmult_integral in H. lra.
      * exists [4; 5]. intros y Hy. apply companion_eigen in Hy; [|lia|reflexivity|cbn; lra].
        unfold peval in Hy; cbn in Hy. assert (Hq : (y - 4) * (y - 5) = 0) by lra.
        apply Rmult_integral in Hq. cbn. lra.
Qed.
Print Assumptions C52_far_root_refuted.

(* A line followed by a parabola, 1+x up to 0, 1-2x-x^2 on (0,1], -2 beyond:
   the degree of the line is used for the parabola and 1/2 is reported *)
Definition ex_mix : pwpoly R :=
  PwP Pw [0; 0; 1] (CArr 3 [] 3 (fun _ i => nth i [[1; 1; 0]; [1; -2; -1]; [-2; 0; 0]] [])) None.
Example ex_mix_wf : pw_wf ex_mix.
Proof. wf2. Qed.
Lemma deg_at tol c n : 0 <= tol -> (n < length c)%nat ->
  (forall k, (k < length c)%nat -> tol * Rabs (nth k c 0) < Rabs (nth n c 0)) ->
  (forall k, (n < k < length c)%nat -> nth k c 0 = 0) -> rt_deg tol c = n.
Proof.
  intros Ht HL H H'. unfold rt_deg. set (m := fold_left nmax (map nabs c) n0).
  assert (Hm0 : 0 <= m) by exact (proj1 (proj2 (nmax_fold (map nabs c) 0))).
  assert (Hm : tol * m < Rabs (nth n c 0)).
  { destruct (nmax_fold (map nabs c) 0) as (I1 & _ & _). change (fold_left nmax (map nabs c) 0) with m in I1.
    destruct I1 as [I1|I1].
    - rewrite I1, Rmult_0_r. apply Rle_lt_trans with (tol * Rabs (nth n c 0)); [|apply H; lia].
      apply Rmult_le_pos; auto. apply Rabs_pos.
    - apply in_map_iff in I1. destruct I1 as (a & E & Ha). rewrite nabs_R in E.
      apply (In_nth _ _ 0) in Ha. destruct Ha as (k & Hk & <-). rewrite <- E. apply H. lia. }
  set (f := fun (a : R) k => if nltb (nmul tol m) (nabs a) then k else O).
  set (zs := zipw f c (seq 0 (length c))).
  assert (Hz : forall k, (k < length c)%nat -> nth k zs 0%nat = f (nth k c 0) k).
  { intros k Hk. unfold zs. rewrite (nth_zipw _ _ _ _ 0 0%nat) by (rewrite ?seq_length; lia).
    rewrite seq_nth by lia. reflexivity. }
  assert (Lz : length zs = length c) by (unfold zs; rewrite zipw_length, seq_length; lia).
  destruct (natmax_fold zs 0) as (I1 & I2 & I3). set (M := fold_left Nat.max zs 0%nat) in *.
  assert (M <= n)%nat.
  { destruct I1 as [->|I1]; [lia|]. apply (In_nth _ _ 0%nat) in I1. destruct I1 as (k & Hk & <-).
    rewrite Hz by lia. unfold f. destruct (le_lt_dec k n); [destruct (nltb _ _); lia|].
    rewrite H' by lia. numR. rewrite nabs_R, Rabs_R0.
    destruct (Rltb_spec (tol * m) 0); [|lia]. exfalso. pose proof (Rmult_le_pos tol m). lra. }
  assert (n <= M)%nat.
  { replace n with (nth n zs 0%nat) at 1; [apply I3, nth_In; lia|].
    rewrite Hz by lia. unfold f. numR. rewrite nabs_R.
    destruct (Rltb_spec (tol * m) (Rabs (nth n c 0))); [reflexivity|lra]. }
  lia.
Qed.
Theorem C52_mixed_degree_refuted : exists (p : pwpoly R) (x : R),
  pw_wf p /\ pcl p = Pw /\ csh (pc p) = [] /\ (forall x, continuity_pt (pw_val p []) x) /\
  pw_call p [] x <> Ok 0 /\
  forall eigreal, eig_spec eigreal -> exists xs, roots eigreal p 0 (1/10^9) = Ok xs /\ In x xs.
Proof.
  exists ex_mix, (1/2). split; [apply ex_mix_wf|]. split; [reflexivity|]. split; [reflexivity|].
  split; [cont2 ex_mix_wf|]. split.
  { rewrite (val2 _ 1) by (apply ex_mix_wf || reflexivity || lra). unfold peval; cbn. intros H; injection H; lra. }
  intros eigreal He.
  assert (Ec0 : rt_c ex_mix 0 0 = [1; 1; 0]) by (unfold rt_c, rt_dx, scalec; rsimpl; repeat (f_equal; try ring)).
  assert (Ec1 : rt_c ex_mix 0 1 = [1; -2; -1]) by (unfold rt_c, rt_dx, scalec; rsimpl; repeat (f_equal; try ring)).
  assert (Ec2 : rt_c ex_mix 0 2 = [-2; 0; 0]) by (unfold rt_c, rt_dx, scalec; rsimpl; repeat (f_equal; try ring)).
  assert (A1 : Rabs 1 = 1) by (apply Rabs_right; lra). assert (A2 : Rabs (-2) = 2) by (rewrite Rabs_left; lra).
  assert (A3 : Rabs (-1) = 1) by (rewrite Rabs_left; lra).
  assert (D0 : rt_deg (1/10^9) (rt_c ex_mix 0 0) = 1%nat).
  { rewrite Ec0. apply deg_at; [lra|cbn; lia| |]; intros [|[|[|k]]] Hk; cbn in Hk; try lia; cbn [nth];
      rewrite ?Rabs_R0, ?A1; lra. }
  assert (D1 : rt_deg (1/10^9) (rt_c ex_mix 0 1) = 2%nat).
  { rewrite Ec1. apply deg_at; [lra|cbn; lia| |]; intros [|[|[|k]]] Hk; cbn in Hk; try lia; cbn [nth];
      rewrite ?A1, ?A2, ?A3; lra. }
  assert (D2 : rt_deg (1/10^9) (rt_c ex_mix 0 2) = 0%nat).
  { rewrite Ec2. apply deg_at; [lra|cbn; lia| |]; intros [|[|[|k]]] Hk; cbn in Hk; try lia; cbn [nth];
      rewrite ?A2, ?Rabs_R0; lra. }
  (* the 1 by 1 matrix built from the parabola *)
  assert (Hev : forall z, real_eigenvalue 1 (companion 1 [1; -2; -1]) z <-> z = 1/2).
  { intros z. split.
    - intros (w & (i & Hi & Hw) & H). assert (i = 0)%nat by lia. subst i. specialize (H 0%nat ltac:(lia)).
      cbn in H. unfold companion in H; cbn in H. numR. assert ((z - 1/2) * w 0%nat = 0).
      { rewrite Rmult_minus_distr_r, <- H. field. }
      apply Rmult_integral in H0. lra.
    - intros ->. exists (fun _ => 1). split; [exists 0%nat; split; [lia|lra]|].
      intros i Hi. assert (i = 0)%nat by lia. subst i. cbn. unfold companion; cbn. numR. field. }
  assert (Hall : forall z, In z (eigreal 1%nat (companion 1 [1; -2; -1])) <-> z = 1/2).
  { intros z. etransitivity; [|apply Hev]. apply He; [lia|]. exists [1/2]. intros y Hy. apply Hev in Hy. left; auto. }
  set (ev := eigreal 1%nat (companion 1 [1; -2; -1])) in *.
  assert (F : filter (fun x => Rleb 0 x && Rleb x 1)%bool ev = ev).
  { apply filter_true. intros z Hz. apply Hall in Hz. subst z.
    destruct (Rleb_spec 0 (1/2)); [|lra]. destruct (Rleb_spec (1/2) 1); [reflexivity|lra]. }
  rewrite (roots_parts eigreal ex_mix 0 _ [0; 1; 2]%nat [] [-1] (map (fun x => x * rt_dx ex_mix 1 + nth 1 (pxk0 ex_mix) 0) ev));
    [|reflexivity|cbn; lia| | | |].
  - set (raw := [] ++ [-1] ++ map (fun x => x * rt_dx ex_mix 1 + nth 1 (pxk0 ex_mix) 0) ev).
    assert (Hr : forall x, In x raw <-> x = -1 \/ x = 1/2).
    { intros x. unfold raw. cbn [app]. rewrite <- (Hall (1/2)) || idtac. split.
      - intros [<-|Hx]; [left; auto|right]. apply in_map_iff in Hx. destruct Hx as (z & <- & Hz). apply Hall in Hz. subst z.
        unfold rt_dx; cbn. numR. field.
      - intros [->| ->]; [left; auto|right]. apply in_map_iff. exists (1/2). split; [|apply Hall; auto].
        unfold rt_dx; cbn. numR. field. }
    pose proof (roots_assemble ex_mix raw (1/10^9) 1 ex_mix_wf ltac:(lra)) as A.
    assert (H1 : length (pxk ex_mix) = 1%nat -> 1 <= 1) by (intros; lra).
    assert (H2 : forall i, (S i < length (pxk ex_mix))%nat -> nth (S i) (pxk ex_mix) 0 - nth i (pxk ex_mix) 0 <= 1).
    { intros [|i] Hi; cbn in *; [lra|lia]. }
    specialize (A H1 H2). destruct (nsort raw) as [|a r].
    + exfalso. destruct A as (_ & A). assert (In (-1) raw) as Q by (apply Hr; auto). rewrite A in Q. destruct Q.
    + eexists. split; [reflexivity|]. destruct A as (_ & _ & A).
      destruct (A (fun x => x = -1 \/ x = 1/2) (fun x Hx => proj1 (Hr x) Hx) (1/2)) as (y & Hy & C); [apply Hr; auto|].
      assert (y = 1/2); [|subst y; exact Hy].
      unfold stands_for in C. apply clos_rt_rt1n in C.
      assert (G : forall u w, clos_refl_trans_1n R (near_dup (fun x => x = -1 \/ x = 1/2) (1/10^9 * 1)) u w -> w = 1/2 -> u = 1/2).
      { clear. induction 1 as [|u z w (C1 & C2 & C3) C IH]; auto. intros Hw. specialize (IH Hw). subst z.
        destruct C1 as [->|]; auto. exfalso. cbn in C3. lra. }
      apply (G y (1/2)); auto.
  - cbn [ex_mix pxk pxk0 tl length seq filter].
    replace (rt_maybe ex_mix 0 0) with true by (unfold rt_maybe; rcmp; reflexivity).
    replace (rt_maybe ex_mix 0 1) with true by (unfold rt_maybe; rcmp; reflexivity).
    replace (rt_maybe ex_mix 0 2) with true by (unfold rt_maybe; rcmp; reflexivity).
    reflexivity.
  - unfold rt_knots. rcmp. reflexivity.
  - unfold rt_linear. cbn [filter]. rewrite D0, D1, D2. cbn [Nat.eqb existsb orb filter].
    rewrite Ec0. cbn [nth]. numR. replace (Rleb (- (1) / 1) 0) with true by (destruct (Rleb_spec (- (1) / 1) 0); [reflexivity|lra]).
    cbn [map]. rewrite Ec0. unfold rt_dx. rsimpl. f_equal. field.
  - unfold rt_nonlinear. cbn [filter]. rewrite D0, D1, D2. cbn [Nat.ltb Nat.leb length seq mapM nth].
    rewrite D0, Ec1. cbn [Nat.eqb nth existsb orb andb]. numR. destruct (Reqb_spec (-2) 0); [lra|]. fold ev.
    cbn [ex_mix pxk pxk0 tl length Nat.leb orb negb]. numR. rewrite F.
    cbn [bind concat]. rewrite app_nil_r. reflexivity.
Qed.
Print Assumptions C52_mixed_degree_refuted.

(* A knot where p jumps across the value is reported although p(x) differs *)
Theorem C52_jump_refuted : exists (p : pwpoly R) (x : R),
  pw_wf p /\ pcl p = Pw /\ csh (pc p) = [] /\ pw_call p [] x <> Ok 0 /\
  forall eigreal, roots eigreal p 0 (1/10^9) = Ok [x].
Proof.
  set (p := PwP Pw [0; 0; 1] (CArr 2 [] 3 (fun _ i => nth i [[1; 0]; [1; 0]; [-1; 0]] [])) None : pwpoly R).
  assert (W : pw_wf p) by (unfold p; wf2).
  exists p, 1. split; [auto|]. split; [reflexivity|]. split; [reflexivity|]. split.
  - rewrite (val2 _ 1) by (auto || lra). unfold peval; cbn. intros H; injection H; lra.
  - intros eigreal. assert (Ec2 : rt_c p 0 2 = [-1; 0]) by (unfold rt_c, rt_dx, scalec; rsimpl; repeat (f_equal; try ring)).
    assert (D2 : rt_deg (1/10^9) (rt_c p 0 2) = 0%nat).
    { rewrite Ec2. assert (A3 : Rabs (-1) = 1) by (rewrite Rabs_left; lra).
      apply deg_at; [lra|cbn; lia| |]; intros [|[|k]] Hk; cbn in Hk; try lia; cbn [nth]; rewrite ?A3, ?Rabs_R0; lra. }
    rewrite (roots_parts eigreal p 0 _ [2%nat] [1] [] []); [reflexivity|reflexivity|cbn; lia| | | |].
    + cbn [p pxk pxk0 tl length seq filter].
      replace (rt_maybe p 0 0) with false by (unfold rt_maybe; rcmp; reflexivity).
      replace (rt_maybe p 0 1) with false by (unfold rt_maybe; rcmp; reflexivity).
      replace (rt_maybe p 0 2) with true by (unfold rt_maybe; rcmp; reflexivity).
      reflexivity.
    + unfold rt_knots. rcmp. reflexivity.
    + unfold rt_linear. cbn [filter]. rewrite D2. reflexivity.
    + unfold rt_nonlinear. cbn [filter]. rewrite D2. reflexivity.
Qed.
Print Assumptions C52_jump_refuted.

(* "cannot find roots of multidimensional function" *)
Theorem C52_vector : forall eigreal (p : pwpoly R) (v tol : R), csh (pc p) <> [] -> roots eigreal p v tol = Err TypeError.
Proof. intros eigreal p v tol H. unfold roots. destruct (csh (pc p)); [congruence|reflexivity]. Qed.
Example C52_vector_case eigreal : roots eigreal (PwP Pw [0; 0; 1] (CArr 2 [3%nat] 3 (fun _ _ => [1; 0])) None : pwpoly R) 0 (1/10^9) = Err TypeError.
Proof. apply C52_vector. discriminate. Qed.
