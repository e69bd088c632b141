(* The spline (npplus/pwpoly.py:817-1024) depends linearly on its data, follows affine changes of the abscissa and is mirrored with its data. *)
From Coq Require Import List Arith ZArith Lia Bool Reals Lra.
From Verif Require Import Num PyBase NdArray Poly SpecPoly PolyProofs PwPoly PwBase PwDeriv PwInteg PwCtor PropsCtor RSum
  SolvePer SolveProofs Gauss PropsSolve Spline SplineProofs SplineCore SplineSolve SplineFacts SplfitProofs SplfitSolve SplfitRow PropsSpline PropsSplineUniq.
Import ListNotations.
Local Open Scope R_scope.

(** ** polynomials under scaling of the argument *)
Fixpoint psc (r : R) (c : list R) : list R := match c with [] => [] | a :: c' => a :: map (Rmult r) (psc r c') end.
Lemma psc_len r c : length (psc r c) = length c.
Proof. induction c as [|a c IH]; [reflexivity|]. cbn. rewrite map_length, IH. reflexivity. Qed.
Lemma psc_tay r c : forall k u, tay k (psc r c) u = r ^ k * tay k c (r * u).
Proof.
  induction c as [|a c IH]; intros k u; cbn [psc tay]; [ring|]. rewrite !tay_smul. destruct k as [|k]; rewrite ?IH.
  - cbn [pow]. ring.
  - rewrite tay_smul, IH. cbn [pow]. ring.
Qed.
Definition lcomb (a b : R) (c1 c2 : list R) : list R := zipw Rplus (map (Rmult a) c1) (map (Rmult b) c2).
Lemma zipw_len (c1 c2 : list R) : length c1 = length c2 -> length (zipw Rplus c1 c2) = length c1.
Proof. revert c2; induction c1 as [|u c IH]; intros [|v d] H; cbn in *; try lia; auto. Qed.
Lemma lcomb_len a b c1 c2 : length c1 = length c2 -> length (lcomb a b c1 c2) = length c1.
Proof. intros L. unfold lcomb. rewrite zipw_len; rewrite !map_length; auto. Qed.
Lemma lcomb_tay a b c1 c2 k u : length c1 = length c2 -> tay k (lcomb a b c1 c2) u = a * tay k c1 u + b * tay k c2 u.
Proof. intros L. unfold lcomb. rewrite tay_add by (rewrite !map_length; auto). rewrite !tay_smul. reflexivity. Qed.
Lemma attains_tay lo hi j cf cl d : attains lo hi j cf cl d <->
  (forall k b, nth k lo None = Some b -> tay (S k) cf 0 = bget b [j]) /\ (forall k b, nth k hi None = Some b -> tay (S k) cl d = bget b [j]).
Proof.
  assert (E : forall k c t v, nderiv_at (S k) (peval c) t (INR (fact (S k)) * v) <-> tay (S k) c t = v).
  { intros k c t v. split; intros H.
    - apply nderiv_at_coef in H. apply (Rmult_eq_reg_l (INR (fact (S k)))); [auto|apply INR_fact_neq_0].
    - apply nderiv_at_peval. rewrite H. reflexivity. }
  unfold attains. split; intros [H1 H2]; split; intros k b Hb; apply E; auto.
Qed.

(** ** the same places filled in for the same pattern of given conditions *)
Lemma count_pattern (l l' : list (option (nd R))) : (forall k, is_some (nth k l None) = is_some (nth k l' None)) -> count_some l = count_some l'.
Proof.
  revert l'; induction l as [|a l IH]; intros l' H.
  - induction l' as [|b l' IH']; [reflexivity|]. unfold count_some in *. cbn [filter]. pose proof (H 0%nat) as H0. cbn in H0. rewrite <- H0. apply IH'.
    intros k. specialize (H (S k)). cbn in H. rewrite <- H. destruct k; reflexivity.
  - destruct l' as [|b l'].
    + pose proof (H 0%nat) as H0. cbn in H0. unfold count_some. cbn [filter]. rewrite H0. apply (IH []).
      intros k. specialize (H (S k)). cbn in H. rewrite H. destruct k; reflexivity.
    + pose proof (H 0%nat) as H0. cbn in H0. unfold count_some in *. cbn [filter]. rewrite H0. pose proof (IH l' (fun k => H (S k))). destruct (is_some b); cbn [length]; lia.
Qed.
Lemma free_pattern lo hi lo' hi' l : (forall sl, is_some (getslot lo' hi' sl) = is_some (getslot lo hi sl)) -> free_slots lo' hi' l = free_slots lo hi l.
Proof. intros H. unfold free_slots. induction l as [|u l IH]; cbn; auto. rewrite H, IH. reflexivity. Qed.

(* the end conditions 3 are those of s*t + c: a times the conditions 1 plus b times the conditions 2, given at the same places *)
Definition comb_bc (s a b : R) (lo1 hi1 : list (option (nd R))) (j1 : nat) (lo2 hi2 : list (option (nd R))) (j2 : nat)
    (lo3 hi3 : list (option (nd R))) (j3 : nat) : Prop :=
  forall k e, match getslot lo1 hi1 (k, e), getslot lo2 hi2 (k, e), getslot lo3 hi3 (k, e) with
    | None, None, None => True
    | Some b1, Some b2, Some b3 => s ^ (k + 1) * bget b3 [j3] = a * bget b1 [j1] + b * bget b2 [j2]
    | _, _, _ => False end.
Lemma comb_pattern s a b lo1 hi1 j1 lo2 hi2 j2 lo3 hi3 j3 : comb_bc s a b lo1 hi1 j1 lo2 hi2 j2 lo3 hi3 j3 ->
  (forall sl, is_some (getslot lo2 hi2 sl) = is_some (getslot lo1 hi1 sl)) /\ (forall sl, is_some (getslot lo3 hi3 sl) = is_some (getslot lo1 hi1 sl)).
Proof.
  intros H. split; intros [k e]; specialize (H k e); destruct (getslot lo1 hi1 (k, e)), (getslot lo2 hi2 (k, e)), (getslot lo3 hi3 (k, e)); cbn; tauto.
Qed.
Lemma pat_counts lo hi lo' hi' : (forall sl, is_some (getslot lo' hi' sl) = is_some (getslot lo hi sl)) -> count_some lo' = count_some lo /\ count_some hi' = count_some hi.
Proof. intros H. split; apply count_pattern; intros k; [apply (H (k, false))|apply (H (k, true))]. Qed.
Lemma bget_zero j : bget (scalar 0) [j] = (0 : R).
Proof. reflexivity. Qed.
Lemma slot_dec (u v : nat * bool) : {u = v} + {u <> v}.
Proof. decide equality; [apply bool_dec|apply Nat.eq_dec]. Defined.
Lemma comb_filled n s a b lo1 hi1 j1 lo2 hi2 j2 lo3 hi3 j3 u1 v1 u2 v2 u3 v3 : comb_bc s a b lo1 hi1 j1 lo2 hi2 j2 lo3 hi3 j3 ->
  filled n lo1 hi1 u1 v1 -> filled n lo2 hi2 u2 v2 -> filled n lo3 hi3 u3 v3 -> comb_bc s a b u1 v1 j1 u2 v2 j2 u3 v3 j3.
Proof.
  intros H F1 F2 F3 k e. destruct (comb_pattern _ _ _ _ _ _ _ _ _ _ _ _ H) as [P2 P3].
  destruct (pat_counts _ _ _ _ P2) as [C2 C2']. destruct (pat_counts _ _ _ _ P3) as [C3 C3'].
  unfold filled in F1, F2, F3. rewrite (free_pattern lo1 hi1 lo2 hi2), C2, C2' in F2 by auto. rewrite (free_pattern lo1 hi1 lo3 hi3), C3, C3' in F3 by auto.
  cbv zeta in F1, F2, F3. specialize (F1 (k, e)). specialize (F2 (k, e)). specialize (F3 (k, e)).
  match type of F1 with (In ?u ?l -> _) /\ _ => destruct (in_dec slot_dec u l) as [I|I] end.
  - rewrite (proj1 F1 I), (proj1 F2 I), (proj1 F3 I). unfold zero_bc. rewrite !bget_zero. ring.
  - rewrite (proj2 F1 I), (proj2 F2 I), (proj2 F3 I). apply H.
Qed.

(** ** splines are closed under linear combinations and affine changes of the abscissa *)
Definition aff (s c : R) (u : R) : R := s * u + c.
Lemma aff_nth s c x i : (i < length x)%nat -> nth i (map (aff s c) x) 0 = s * nth i x 0 + c.
Proof. intros H. rewrite (nth_indep _ 0 (aff s c 0)) by (rewrite map_length; auto). rewrite map_nth. reflexivity. Qed.
Lemma aff_incr s c x : 0 < s -> incr x -> incr (map (aff s c) x).
Proof. intros Hs Hi i H. rewrite map_length in H. rewrite !aff_nth by lia. specialize (Hi i H). nra. Qed.
Lemma dpl_affine r c t : derivable_pt_lim (fun u => r * (u - c)) t r.
Proof.
  pose proof (derivable_pt_lim_scal (fun u => u - c) r t (1 - 0)) as D. rewrite Rminus_0_r, Rmult_1_r in D. apply D.
  rewrite <- (Rminus_0_r 1). apply (derivable_pt_lim_minus (fun u => u) (fun _ => c)); [apply derivable_pt_lim_id|apply derivable_pt_lim_const].
Qed.
Lemma dpl_aff (f : R -> R) r c t l : derivable_pt_lim f (r * (t - c)) l -> derivable_pt_lim (fun u => f (r * (u - c))) t (r * l).
Proof. intros H. replace (r * l) with (l * r) by ring. apply (derivable_pt_lim_comp (fun u => r * (u - c)) f); [apply dpl_affine|exact H]. Qed.
Lemma cont_aff (f : R -> R) r c t : continuity_pt f (r * (t - c)) -> continuity_pt (fun u => f (r * (u - c))) t.
Proof. intros H. apply (continuity_pt_comp (fun u => r * (u - c)) f); [|exact H]. apply derivable_continuous_pt. exists r. apply dpl_affine. Qed.
Lemma cont_lin (f g : R -> R) a b t : continuity_pt f t -> continuity_pt g t -> continuity_pt (fun u => a * f u + b * g u) t.
Proof. intros H1 H2. apply (continuity_pt_plus (fun u => a * f u) (fun u => b * g u)); apply (continuity_pt_scal _ _ t); assumption. Qed.
Lemma dpl_lincomb (f g : R -> R) a b t l m : derivable_pt_lim f t l -> derivable_pt_lim g t m -> derivable_pt_lim (fun u => a * f u + b * g u) t (a * l + b * m).
Proof. intros H1 H2. apply (derivable_pt_lim_plus (fun u => a * f u) (fun u => b * g u)); apply derivable_pt_lim_scal; assumption. Qed.

Section Comb.
  Variables (n : nat) (x : list R) (s c a b : R).
  Hypotheses (Hs : 0 < s) (Hx : (2 <= length x)%nat).
  Let r := / s.
  Let Hr : r * s = 1.
  Proof. unfold r. apply Rinv_l. lra. Qed.
  Let x' := map (aff s c) x.
  Let Lx : length x' = length x.
  Proof. apply map_length. Qed.
  Definition cfun (f1 f2 : R -> R) (t : R) : R := a * f1 (r * (t - c)) + b * f2 (r * (t - c)).
  Definition cder (g1 g2 : nat -> R -> R) (k : nat) (t : R) : R := r ^ k * (a * g1 k (r * (t - c)) + b * g2 k (r * (t - c))).
  Definition cpie (Q1 Q2 : nat -> list R) (q : nat) : list R := psc r (lcomb a b (Q1 q) (Q2 q)).
  Lemma back t : r * (s * t + c - c) = t.
  Proof using Hs. transitivity (r * s * t); [ring|]. rewrite Hr. ring. Qed.
  Lemma back_lt u t : s * u + c < t <-> u < r * (t - c).
  Proof using Hs.
    assert (0 < r) by (unfold r; apply Rinv_0_lt_compat; lra). rewrite <- (back u) at 2. split; intros H'; [apply Rmult_lt_compat_l; lra|].
    apply Rmult_lt_reg_l in H'; lra.
  Qed.
  Lemma back_gt u t : t < s * u + c <-> r * (t - c) < u.
  Proof using Hs.
    assert (0 < r) by (unfold r; apply Rinv_0_lt_compat; lra). rewrite <- (back u) at 2. split; intros H'; [apply Rmult_lt_compat_l; lra|].
    apply Rmult_lt_reg_l in H'; lra.
  Qed.
  Lemma back_le u t : t <= s * u + c <-> r * (t - c) <= u.
  Proof using Hs.
    assert (0 < r) by (unfold r; apply Rinv_0_lt_compat; lra). rewrite <- (back u) at 2. split; intros H'; [apply Rmult_le_compat_l; lra|].
    apply Rmult_le_reg_l in H'; lra.
  Qed.
  Lemma back_sub u t : r * (t - (s * u + c)) = r * (t - c) - u.
  Proof using Hs. transitivity (r * (t - c) - r * s * u); [ring|]. rewrite Hr. ring. Qed.
  Lemma comb_pieces f1 f2 Q1 Q2 : on_pieces n x f1 Q1 -> on_pieces n x f2 Q2 -> on_pieces n x' (cfun f1 f2) (cpie Q1 Q2).
  Proof using Hs Hx.
    intros H1 H2 q Hq. rewrite Lx in Hq. destruct (H1 q Hq) as [L1 E1]. destruct (H2 q Hq) as [L2 E2]. split.
    - unfold cpie. rewrite psc_len, lcomb_len; lia.
    - intros t Ht. unfold x' in Ht |- *. rewrite (aff_nth s c x q), (aff_nth s c x (S q)) in Ht by lia. rewrite aff_nth by lia. destruct Ht as [Ht1 Ht2]. apply back_lt in Ht1. apply back_le in Ht2. unfold cfun. rewrite E1, E2 by auto.
      rewrite <- !tay_0. unfold cpie. rewrite psc_tay, lcomb_tay by lia. rewrite back_sub. cbn [pow]. ring.
  Qed.
  Lemma comb_derivs h g1 g2 t : derivs_at h g1 (r * (t - c)) -> derivs_at h g2 (r * (t - c)) -> derivs_at h (cder g1 g2) t.
  Proof using.
    intros [D1 C1] [D2 C2]. split; intros k Hk.
    - unfold cder. replace (r ^ S k * _) with (r ^ k * (a * (r * g1 (S k) (r * (t - c))) + b * (r * g2 (S k) (r * (t - c))))) by (cbn [pow]; ring).
      apply derivable_pt_lim_scal. apply (dpl_lincomb (fun u => g1 k (r * (u - c))) (fun u => g2 k (r * (u - c)))); apply dpl_aff; auto.
    - unfold cder. apply (continuity_pt_scal (fun u => a * g1 k (r * (u - c)) + b * g2 k (r * (u - c)))).
      apply (cont_lin (fun u => g1 k (r * (u - c))) (fun u => g2 k (r * (u - c)))); apply cont_aff; auto.
  Qed.
  Lemma comb_spline Y1 Y2 Y3 lo1 hi1 j1 lo2 hi2 j2 lo3 hi3 j3 f1 f2 : (1 <= n)%nat ->
    a_spline n x Y1 lo1 hi1 j1 f1 -> a_spline n x Y2 lo2 hi2 j2 f2 -> comb_bc s a b lo1 hi1 j1 lo2 hi2 j2 lo3 hi3 j3 ->
    (forall i, (i < length x)%nat -> Y3 i = a * Y1 i + b * Y2 i) -> a_spline n x' Y3 lo3 hi3 j3 (cfun f1 f2).
  Proof using Hs Hx.
    intros Hn (Q1 & g1 & P1 & V1 & D1 & A1) (Q2 & g2 & P2 & V2 & D2 & A2) B HY.
    assert (LL : forall q, (S q < length x)%nat -> length (Q1 q) = length (Q2 q)).
    { intros q Hq. destruct (P1 q Hq) as [L1 _]. destruct (P2 q Hq) as [L2 _]. congruence. }
    exists (cpie Q1 Q2), (cder g1 g2). split; [apply comb_pieces; auto|]. split; [|split].
    - intros q Hq. rewrite Lx in Hq. destruct (V1 q Hq) as [V11 V12]. destruct (V2 q Hq) as [V21 V22]. unfold x'. rewrite !aff_nth by lia.
      rewrite <- !tay_0 in *. unfold cpie. rewrite !psc_tay, !lcomb_tay by auto. rewrite Rmult_0_r.
      replace (r * (s * nth (S q) x 0 + c - (s * nth q x 0 + c))) with (nth (S q) x 0 - nth q x 0) by (rewrite back_sub, back; reflexivity).
      rewrite V11, V12, V21, V22, !HY by lia. cbn [pow]. split; ring.
    - intros t Ht. rewrite Lx in Ht. unfold x' in Ht. rewrite !aff_nth in Ht by lia. assert (Ht' : nth 0 x 0 < r * (t - c) < nth (length x - 1) x 0) by (split; [apply back_lt|apply back_gt]; apply Ht).
      destruct (D1 _ Ht') as [E1 D1']. destruct (D2 _ Ht') as [E2 D2']. split; [|apply comb_derivs; auto]. unfold cder, cfun. rewrite E1, E2. cbn [pow]. ring.
    - rewrite attains_tay in A1, A2 |- *. destruct A1 as [A1 A1']. destruct A2 as [A2 A2']. rewrite Lx. unfold x'. rewrite !aff_nth by lia.
      assert (RS : forall k v v', s ^ (k + 1) * v = v' -> r ^ S k * v' = v).
      { intros k v v' <-. rewrite Nat.add_1_r, <- Rmult_assoc, <- Rpow_mult_distr, Hr, pow1. ring. }
      split; intros k b3 E3; unfold cpie; rewrite psc_tay, lcomb_tay by (apply LL; lia); apply RS.
      + specialize (B k false). unfold getslot in B. cbn [fst snd] in B. rewrite E3 in B. rewrite Rmult_0_r.
        destruct (nth k lo1 None) eqn:E1, (nth k lo2 None) eqn:E2; try tauto. rewrite (A1 k _ E1), (A2 k _ E2). exact B.
      + specialize (B k true). unfold getslot in B. cbn [fst snd] in B. rewrite E3 in B. rewrite back_sub, back.
        destruct (nth k hi1 None) eqn:E1, (nth k hi2 None) eqn:E2; try tauto. rewrite (A1' k _ E1), (A2' k _ E2). exact B.
  Qed.
  Lemma comb_per Y1 Y2 Y3 f1 f2 : a_per_spline n x Y1 f1 -> a_per_spline n x Y2 f2 ->
    (forall i, (i < length x - 1)%nat -> Y3 i = a * Y1 i + b * Y2 i) -> a_per_spline n x' Y3 (cfun f1 f2).
  Proof using Hs Hx.
    intros (Q1 & g1 & P1 & V1 & D1 & T1) (Q2 & g2 & P2 & V2 & D2 & T2) HY. exists (cpie Q1 Q2), (cder g1 g2). split; [apply comb_pieces; auto|]. split; [|split].
    - intros q Hq. rewrite Lx in Hq. unfold x'. rewrite aff_nth by lia. unfold cfun. rewrite back, V1, V2, HY by auto. reflexivity.
    - destruct D1 as (Z1 & D1 & C1). destruct D2 as (Z2 & D2 & C2).
      assert (DD : forall t, derivs_at (n - 1) (cder g1 g2) t) by (intros t; apply comb_derivs; split; auto).
      split; [|split; intros k t; apply (DD t)]. intros t. unfold cder, cfun. rewrite Z1, Z2. cbn [pow]. ring.
    - intros t. rewrite Lx. unfold x'. rewrite !aff_nth by lia. unfold cfun.
      replace (r * (t + _ - c)) with (r * (t - c) + (nth (length x - 1) x 0 - nth 0 x 0)); [rewrite T1, T2; reflexivity|].
      transitivity (r * (t - c) + r * s * (nth (length x - 1) x 0 - nth 0 x 0)); [rewrite Hr; ring|ring].
  Qed.
End Comb.

(** ** the mirror image *)
(* the end conditions 3 are those of -t: the other end, odd orders with the other sign *)
Definition mirror_bc (lo hi : list (option (nd R))) (j : nat) (lo3 hi3 : list (option (nd R))) (j3 : nat) : Prop :=
  forall k e, match getslot lo hi (k, e), getslot lo3 hi3 (k, negb e) with
    | None, None => True
    | Some b, Some b3 => bget b3 [j3] = (-1) ^ (k + 1) * bget b [j]
    | _, _ => False end.
Definition mirrored (x : list R) : list R := rev (map Ropp x).
Lemma mirrored_len x : length (mirrored x) = length x.
Proof. unfold mirrored. rewrite rev_length, map_length. reflexivity. Qed.
Lemma mirrored_nth x i : (i < length x)%nat -> nth i (mirrored x) 0 = - nth (length x - 1 - i) x 0.
Proof.
  intros H. unfold mirrored. rewrite rev_nth by (rewrite map_length; auto). rewrite map_length.
  rewrite (nth_indep _ 0 (- 0)) by (rewrite map_length; lia). rewrite map_nth. f_equal. f_equal. lia.
Qed.
Lemma mirrored_incr x : incr x -> incr (mirrored x).
Proof.
  intros Hi i H. rewrite mirrored_len in H. rewrite !mirrored_nth by lia. pose proof (Hi (length x - 1 - S i)%nat ltac:(lia)) as Hk.
  replace (S (length x - 1 - S i)) with (length x - 1 - i)%nat in Hk by lia. lra.
Qed.
Lemma sym_first lo hi : (forall k, is_some (nth k lo None) = is_some (nth k hi None)) -> forall m j i e,
  In (i, e) (firstn (2 * j) (free_slots lo hi (slots m))) -> In (i, negb e) (firstn (2 * j) (free_slots lo hi (slots m))).
Proof.
  intros H. induction m as [|m IH]; intros j i e; [cbn [slots free_slots filter]; rewrite firstn_nil; tauto|].
  cbn [slots free_slots filter]. fold (free_slots lo hi (slots m)).
  change (getslot lo hi (m, false)) with (nth m lo None). change (getslot lo hi (m, true)) with (nth m hi None). rewrite (H m).
  destruct (is_some (nth m hi None)); cbn [negb]; [apply IH|].
  destruct j as [|j]; [cbn; tauto|]. replace (2 * S j)%nat with (S (S (2 * j))) by lia. cbn [firstn In].
  intros [E|[E|I]].
  - injection E as <- <-. cbn. tauto.
  - injection E as <- <-. cbn. tauto.
  - right. right. apply IH, I.
Qed.
Definition flip (sl : nat * bool) : nat * bool := (fst sl, negb (snd sl)).
Lemma mirror_pattern lo hi j lo3 hi3 j3 : mirror_bc lo hi j lo3 hi3 j3 -> forall sl, is_some (getslot lo3 hi3 sl) = is_some (getslot lo hi (flip sl)).
Proof.
  intros H [k e]. specialize (H k (negb e)). rewrite negb_involutive in H. unfold flip. cbn [fst snd].
  destruct (getslot lo hi (k, negb e)), (getslot lo3 hi3 (k, e)); cbn; tauto.
Qed.
(* with enough conditions given nothing is filled in; with an odd degree and the same orders given at both ends, pairs are *)
Definition symmetric_given (n : nat) (lo hi : list (option (nd R))) : Prop :=
  (n - 1 <= count_some lo + count_some hi)%nat \/ (Nat.Odd n /\ forall k, nth k lo None = None <-> nth k hi None = None).
Lemma mirror_filled n lo hi j lo3 hi3 j3 u v u3 v3 : mirror_bc lo hi j lo3 hi3 j3 -> symmetric_given n lo hi ->
  filled n lo hi u v -> filled n lo3 hi3 u3 v3 -> mirror_bc u v j u3 v3 j3.
Proof.
  intros H HG F F3 k e. pose proof (mirror_pattern _ _ _ _ _ _ H) as P.
  assert (C : (count_some lo3 + count_some hi3 = count_some lo + count_some hi)%nat).
  { rewrite (count_pattern lo3 hi), (count_pattern hi3 lo); [lia| |]; intros i; [apply (P (i, true))|apply (P (i, false))]. }
  unfold filled in F, F3. cbv zeta in F, F3. rewrite C in F3. specialize (F (k, e)). specialize (F3 (k, negb e)).
  destruct HG as [HG|[HO HS]].
  - replace (n - 1 - (count_some lo + count_some hi))%nat with 0%nat in F, F3 by lia. cbn [firstn In] in F, F3.
    rewrite (proj2 F (fun f => f)), (proj2 F3 (fun f => f)). apply H.
  - assert (HS' : forall i, is_some (nth i lo None) = is_some (nth i hi None)).
    { intros i. destruct (HS i) as [S1 S2]. destruct (nth i lo None), (nth i hi None); cbn; auto; [specialize (S2 eq_refl)|specialize (S1 eq_refl)]; congruence. }
    assert (FE : free_slots lo3 hi3 (slots (n - 1)) = free_slots lo hi (slots (n - 1))).
    { apply free_pattern. intros [i [|]]; rewrite P; unfold flip, getslot; cbn; [|symmetry]; apply HS'. }
    rewrite FE in F3. rewrite (count_pattern lo hi HS') in F, F3. destruct HO as [h Hh].
    replace (n - 1 - (count_some hi + count_some hi))%nat with (2 * (h - count_some hi))%nat in F, F3 by lia.
    match type of F with (In ?w ?l -> _) /\ _ => destruct (in_dec slot_dec w l) as [I|I] end.
    + rewrite (proj1 F I), (proj1 F3 (sym_first lo hi HS' _ _ _ _ I)). unfold zero_bc. rewrite !bget_zero. ring.
    + rewrite (proj2 F I), (proj2 F3); [apply H|]. intros I'. apply I. rewrite <- (negb_involutive e). apply sym_first; auto.
Qed.

Section Mirror.
  Variables (n : nat) (x : list R).
  Hypotheses (Hx : (2 <= length x)%nat) (Hi : incr x).
  Definition mfun (Y : nat -> R) (f : R -> R) (t : R) : R := if Req_EM_T t (- nth 0 x 0) then Y 0%nat else f (- t).
  Definition mpie (Q : nat -> list R) (q : nat) : list R := psc (-1) (tlist n (Q (length x - 2 - q)%nat) (dxs x (length x - 2 - q))).
  Lemma mpie_tay Q q k u : length (Q (length x - 2 - q)%nat) = S n -> tay k (mpie Q q) u = (-1) ^ k * tay k (Q (length x - 2 - q)%nat) (dxs x (length x - 2 - q) - u).
  Proof using. intros L. unfold mpie. rewrite psc_tay, tay_tlist by (rewrite L; apply le_n). f_equal. f_equal. ring. Qed.
  Lemma mirror_spline Y Y3 lo hi j lo3 hi3 j3 f : a_spline n x Y lo hi j f -> mirror_bc lo hi j lo3 hi3 j3 ->
    (forall i, (i < length x)%nat -> Y3 i = Y (length x - 1 - i)%nat) -> a_spline n (mirrored x) Y3 lo3 hi3 j3 (mfun Y f).
  Proof using Hx Hi.
    intros (Q & g & P & V & D & A) B HY.
    assert (DX : forall q, (S q < length x)%nat -> dxs x (length x - 2 - q) = nth (length x - 1 - q) x 0 - nth (length x - 1 - S q) x 0).
    { intros q Hq. unfold dxs. replace (S (length x - 2 - q)) with (length x - 1 - q)%nat by lia. replace (length x - 1 - S q)%nat with (length x - 2 - q)%nat by lia. reflexivity. }
    assert (LQ : forall q, (S q < length x)%nat -> length (Q (length x - 2 - q)%nat) = S n) by (intros q Hq; apply P; lia).
    assert (VV : forall q, (S q < length x)%nat -> peval (mpie Q q) 0 = Y3 q /\ peval (mpie Q q) (dxs x (length x - 2 - q)) = Y3 (S q)).
    { intros q Hq. destruct (V (length x - 2 - q)%nat ltac:(lia)) as [V1 V2]. rewrite <- !tay_0 in *. rewrite !mpie_tay by auto. rewrite Rminus_0_r.
      replace (dxs x (length x - 2 - q) - dxs x (length x - 2 - q)) with 0 by ring. cbn [pow]. rewrite !Rmult_1_l. rewrite V1. change (tay 0 (Q (length x - 2 - q)%nat) (dxs x (length x - 2 - q)) = Y (S (length x - 2 - q))) in V2. rewrite V2.
      rewrite !HY by lia. split; f_equal; lia. }
    exists (mpie Q), (fun k t => (-1) ^ k * g k (- t)). split; [|split; [|split]].
    - intros q Hq. rewrite mirrored_len in Hq. split; [unfold mpie; rewrite psc_len, tlist_length; reflexivity|].
      intros t Ht. rewrite (mirrored_nth x q), (mirrored_nth x (S q)) in Ht by lia. rewrite mirrored_nth by lia.
      destruct (Req_dec t (- nth (length x - 1 - S q) x 0)) as [Et|Et].
      + replace (t - - nth (length x - 1 - q) x 0) with (dxs x (length x - 2 - q)) by (rewrite DX by auto; lra). rewrite (proj2 (VV q Hq)).
        unfold mfun. destruct (Req_EM_T t (- nth 0 x 0)) as [E0|E0].
        * rewrite HY by lia. f_equal. destruct (Nat.eq_dec (length x - 1 - S q) 0); [lia|].
          pose proof (incr_lt x 0 (length x - 1 - S q) Hi ltac:(lia)). lra.
        * assert (length x - 1 - S q <> 0)%nat by (intros E; rewrite E in Et; lra).
          destruct (P (length x - 3 - q)%nat ltac:(lia)) as [_ PE]. replace (S (length x - 3 - q)) with (length x - 1 - S q)%nat in PE by lia.
          rewrite PE.
          2: { replace (- t) with (nth (length x - 1 - S q) x 0) by lra. split; [|lra]. apply incr_lt; auto. lia. }
          replace (- t) with (nth (length x - 1 - S q) x 0) by lra.
          destruct (V (length x - 3 - q)%nat ltac:(lia)) as [_ V2]. replace (S (length x - 3 - q)) with (length x - 1 - S q)%nat in V2 by lia. rewrite V2.
          rewrite HY by lia. reflexivity.
      + unfold mfun. assert (nth 0 x 0 <= nth (length x - 1 - S q) x 0).
        { destruct (Nat.eq_dec (length x - 1 - S q) 0) as [->|Z]; [lra|]. pose proof (incr_lt x 0 (length x - 1 - S q) Hi ltac:(lia)). lra. }
        destruct (Req_EM_T t (- nth 0 x 0)) as [E0|E0]; [lra|].
        destruct (P (length x - 2 - q)%nat ltac:(lia)) as [_ PE]. replace (S (length x - 2 - q)) with (length x - 1 - q)%nat in PE by lia.
        assert (EQ : nth (length x - 2 - q) x 0 = nth (length x - 1 - S q) x 0) by (f_equal; lia). rewrite EQ in PE. rewrite PE by lra.
        rewrite <- !tay_0, mpie_tay by auto. rewrite DX by auto. cbn [pow]. rewrite Rmult_1_l. f_equal. ring.
    - intros q Hq. rewrite mirrored_len in Hq. rewrite !mirrored_nth by lia. rewrite <- (proj1 (VV q Hq)), <- (proj2 (VV q Hq)). split; [reflexivity|].
      rewrite DX by auto. f_equal. ring.
    - intros t Ht. rewrite mirrored_len in Ht. rewrite !mirrored_nth in Ht by lia. rewrite Nat.sub_0_r, Nat.sub_diag in Ht.
      destruct (D (- t) ltac:(lra)) as [E [D1 D2]]. split.
      + unfold mfun. destruct (Req_EM_T t (- nth 0 x 0)); [lra|]. cbn [pow]. rewrite E. ring.
      + assert (OE : forall u : R, - u = (-1) * (u - 0)) by (intros; ring). split; intros k Hk.
        * replace ((-1) ^ S k * g (S k) (- t)) with ((-1) ^ k * (-1 * g (S k) (- t))) by (cbn [pow]; ring). apply derivable_pt_lim_scal.
          apply (dpl_ext (fun u => g k (-1 * (u - 0)))); [intros u; rewrite <- OE; reflexivity|]. apply dpl_aff. rewrite <- OE. auto.
        * apply (continuity_pt_scal (fun u => g k (- u))).
          apply (continuity_pt_comp Ropp (g k)); [|auto]. apply derivable_continuous_pt. exists (-1).
          apply (dpl_ext (fun u => -1 * (u - 0))); [intros u; rewrite <- OE; reflexivity|]. apply dpl_affine.
    - rewrite attains_tay in A |- *. destruct A as [A1 A2]. rewrite mirrored_len. rewrite !mirrored_nth by lia.
      pose proof (DX 0%nat ltac:(lia)) as DX0. rewrite !Nat.sub_0_r in DX0. replace (length x - 1 - 1)%nat with (length x - 2)%nat in DX0 by lia.
      pose proof (DX (length x - 2)%nat ltac:(lia)) as DX1.
      split; intros k b3 E3.
      + rewrite mpie_tay by (apply LQ; lia). rewrite Nat.sub_0_r, Rminus_0_r. specialize (B k true). unfold getslot in B. cbn [fst snd negb] in B. rewrite E3 in B.
        destruct (nth k hi None) eqn:E1; [|tauto]. rewrite DX0, (A2 k _ E1), B, Nat.add_1_r. reflexivity.
      + rewrite mpie_tay by (apply LQ; lia). replace (length x - 1 - (length x - 1))%nat with 0%nat by lia.
        replace (length x - 1 - (length x - 2))%nat with 1%nat by lia. replace (length x - 2 - (length x - 2))%nat with 0%nat by lia.
        replace (dxs x 0 - (- nth 0 x 0 - - nth 1 x 0)) with 0 by (change (dxs x 0) with (nth 1 x 0 - nth 0 x 0); ring).
        specialize (B k false). unfold getslot in B. cbn [fst snd negb] in B. rewrite E3 in B.
        destruct (nth k lo None) eqn:E1; [|tauto]. rewrite (A1 k _ E1), B, Nat.add_1_r. reflexivity.
  Qed.
End Mirror.

Section Lin.
  Variable inv : nat -> (nat -> nat -> R) -> (nat -> nat -> R).
  Variable sb : nat -> nat -> arr2 R -> arr2 R -> res (arr2 R).
  Variable s : arr2 R -> arr2 R -> res (arr2 R).
  Hypothesis Hsb : banded_spec sb.
  Hypothesis Hs : dense_spec s.

  (* knots sc*x + c and data (values and end conditions) combined with the factors a and b give the combination of the splines *)
  Theorem C112_linear : forall n x sc c a b y1 lo1 hi1 e1 p1 j1 y2 lo2 hi2 e2 p2 j2 y3 lo3 hi3 e3 p3 j3,
    (2 <= n)%nat -> incr x -> (2 <= length x)%nat -> 0 < sc ->
    spline inv sb s x y1 n lo1 hi1 false e1 = Ok p1 -> spline inv sb s x y2 n lo2 hi2 false e2 = Ok p2 ->
    spline inv sb s (map (fun u => sc * u + c) x) y3 n lo3 hi3 false e3 = Ok p3 -> inb j1 (ysh y1) -> inb j2 (ysh y2) -> inb j3 (ysh y3) ->
    (forall i, (i < length x)%nat -> yval y3 j3 i = a * yval y1 j1 i + b * yval y2 j2 i) ->
    comb_bc sc a b (bc_tuple lo1) (bc_tuple hi1) (ravel (ysh y1) j1) (bc_tuple lo2) (bc_tuple hi2) (ravel (ysh y2) j2) (bc_tuple lo3) (bc_tuple hi3) (ravel (ysh y3) j3) ->
    determined n x (bc_tuple lo3) (bc_tuple hi3) ->
    forall t, nth 0 x 0 < t <= nth (length x - 1) x 0 ->
      exists v1 v2, pw_call p1 j1 t = Ok v1 /\ pw_call p2 j2 t = Ok v2 /\ pw_call p3 j3 (sc * t + c) = Ok (a * v1 + b * v2).
  Proof using Hsb.
    intros n x sc c a b y1 lo1 hi1 e1 p1 j1 y2 lo2 hi2 e2 p2 j2 y3 lo3 hi3 e3 p3 j3 Hn Hi Hx Hsc E1 E2 E3 B1 B2 B3 HY HB HD t Ht.
    destruct (C109_unique inv sb s Hsb n x y1 lo1 hi1 e1 p1 j1 Hn Hi E1 B1) as (u1 & v1 & F1 & G1 & C1 & S1 & _).
    destruct (C109_unique inv sb s Hsb n x y2 lo2 hi2 e2 p2 j2 Hn Hi E2 B2) as (u2 & v2 & F2 & G2 & C2 & S2 & _).
    assert (Hi3 : incr (map (aff sc c) x)) by (apply aff_incr; auto).
    destruct (C109_unique inv sb s Hsb n _ y3 lo3 hi3 e3 p3 j3 Hn Hi3 E3 B3) as (u3 & v3 & F3 & G3 & C3 & _ & U).
    exists (F1 t), (F2 t). rewrite C1, C2, C3. split; [reflexivity|]. split; [reflexivity|]. f_equal.
    assert (HD' : determined n (map (fun u => sc * u + c) x) (bc_tuple lo3) (bc_tuple hi3)) by (unfold determined in *; rewrite map_length; exact HD).
    rewrite <- (U HD' (cfun sc c a b F1 F2)).
    - unfold cfun. rewrite !back by auto. reflexivity.
    - refine (comb_spline n x sc c a b Hsc Hx _ _ _ _ _ _ _ _ _ _ _ _ F1 F2 ltac:(lia) S1 S2 _ HY).
      apply (comb_filled n sc a b _ _ _ _ _ _ _ _ _ _ _ _ _ _ _ HB G1 G2 G3).
    - rewrite map_length. rewrite !(aff_nth sc c) by lia. split; [apply Rplus_lt_compat_r, Rmult_lt_compat_l; tauto|apply Rplus_le_compat_r, Rmult_le_compat_l; lra].
  Qed.
  (* the same for periodic splines of odd degree, everywhere *)
  Theorem C112_periodic : forall r x sc c a b y1 p1 j1 y2 p2 j2 y3 p3 j3,
    (2 <= r)%nat -> incr x -> (2 <= length x)%nat -> 0 < sc ->
    yn y1 = length x -> yn y2 = length x -> yn y3 = length x -> size (ysh y1) <> 0%nat -> size (ysh y2) <> 0%nat -> size (ysh y3) <> 0%nat ->
    spline inv sb s x y1 (2 * r - 1) (BcTuple []) (BcTuple []) true ExNone = Ok p1 -> spline inv sb s x y2 (2 * r - 1) (BcTuple []) (BcTuple []) true ExNone = Ok p2 ->
    spline inv sb s (map (fun u => sc * u + c) x) y3 (2 * r - 1) (BcTuple []) (BcTuple []) true ExNone = Ok p3 ->
    inb j1 (ysh y1) -> inb j2 (ysh y2) -> inb j3 (ysh y3) ->
    (forall i, (i < length x - 1)%nat -> yval y3 j3 i = a * yval y1 j1 i + b * yval y2 j2 i) ->
    forall t, exists v1 v2, pw_call p1 j1 t = Ok v1 /\ pw_call p2 j2 t = Ok v2 /\ pw_call p3 j3 (sc * t + c) = Ok (a * v1 + b * v2).
  Proof using Hsb Hs.
    intros r x sc c a b y1 p1 j1 y2 p2 j2 y3 p3 j3 Hr Hi Hx Hsc Y1 Y2 Y3 Z1 Z2 Z3 E1 E2 E3 B1 B2 B3 HY t.
    destruct (C109_periodic inv sb s Hsb Hs r x y1 p1 j1 Hr Hi Hx Y1 Z1 E1 B1) as (F1 & C1 & S1 & _).
    destruct (C109_periodic inv sb s Hsb Hs r x y2 p2 j2 Hr Hi Hx Y2 Z2 E2 B2) as (F2 & C2 & S2 & _).
    assert (Hi3 : incr (map (aff sc c) x)) by (apply aff_incr; auto).
    assert (Lx : length (map (fun u => sc * u + c) x) = length x) by apply map_length.
    destruct (C109_periodic inv sb s Hsb Hs r _ y3 p3 j3 Hr Hi3 ltac:(rewrite map_length; auto) ltac:(rewrite map_length; auto) Z3 E3 B3) as (F3 & C3 & _ & U).
    exists (F1 t), (F2 t). rewrite C1, C2, C3. split; [reflexivity|]. split; [reflexivity|]. f_equal.
    rewrite <- (U (cfun sc c a b F1 F2)).
    - unfold cfun. rewrite !back by auto. reflexivity.
    - exact (comb_per (2 * r - 1) x sc c a b Hsc Hx _ _ _ F1 F2 S1 S2 HY).
  Qed.
  (* the knots -x in reverse order and the mirrored data give the mirror image *)
  Theorem C112_mirror : forall n x y lo hi e p j y3 lo3 hi3 e3 p3 j3,
    (2 <= n)%nat -> incr x -> (2 <= length x)%nat ->
    spline inv sb s x y n lo hi false e = Ok p -> spline inv sb s (rev (map Ropp x)) y3 n lo3 hi3 false e3 = Ok p3 -> inb j (ysh y) -> inb j3 (ysh y3) ->
    (forall i, (i < length x)%nat -> yval y3 j3 i = yval y j (length x - 1 - i)%nat) ->
    mirror_bc (bc_tuple lo) (bc_tuple hi) (ravel (ysh y) j) (bc_tuple lo3) (bc_tuple hi3) (ravel (ysh y3) j3) ->
    symmetric_given n (bc_tuple lo) (bc_tuple hi) -> determined n x (bc_tuple lo3) (bc_tuple hi3) ->
    forall t, nth 0 x 0 < t < nth (length x - 1) x 0 -> exists v, pw_call p j t = Ok v /\ pw_call p3 j3 (- t) = Ok v.
  Proof using Hsb.
    intros n x y lo hi e p j y3 lo3 hi3 e3 p3 j3 Hn Hi Hx E E3 B B3 HY HB HG HD t Ht.
    destruct (C109_unique inv sb s Hsb n x y lo hi e p j Hn Hi E B) as (u & v & F & G & C & S & _).
    destruct (C109_unique inv sb s Hsb n _ y3 lo3 hi3 e3 p3 j3 Hn (mirrored_incr x Hi) E3 B3) as (u3 & v3 & F3 & G3 & C3 & _ & U).
    exists (F t). rewrite C, C3. split; [reflexivity|]. f_equal.
    assert (HD' : determined n (mirrored x) (bc_tuple lo3) (bc_tuple hi3)) by (unfold determined in *; rewrite mirrored_len; exact HD).
    rewrite <- (U HD' (mfun x (yval y j) F)).
    - unfold mfun. destruct (Req_EM_T (- t) (- nth 0 x 0)); [lra|]. rewrite Ropp_involutive. reflexivity.
    - apply (mirror_spline n x Hx Hi _ _ u v (ravel (ysh y) j)); auto. apply (mirror_filled n _ _ _ _ _ _ _ _ _ _ HB HG G G3).
    - rewrite mirrored_len, !mirrored_nth by lia. rewrite Nat.sub_0_r, Nat.sub_diag. lra.
  Qed.
End Lin.
Print Assumptions C112_linear.
Print Assumptions C112_periodic.
Print Assumptions C112_mirror.

(* natural cubic splines: twice the data 1, 1, -3, 5 plus three times the line, at the knots 2x + 1 *)
Definition y4s : yarr R := YArr [] 4 (fun _ i => nth i [-1; 5; 9; 31] 0).
Example C112_linear_case : exists p p', gspl x4 y4 3 (BcTuple []) (BcTuple []) false ExNone = Ok p /\
  gspl [2 * -1 + 1; 2 * 0 + 1; 2 * 2 + 1; 2 * 3 + 1] y4s 3 (BcTuple []) (BcTuple []) false ExNone = Ok p' /\
  exists v, pw_call p [] 1 = Ok v /\ pw_call p' [] 3 = Ok (2 * v + 9).
Proof.
  destruct gauss_meets_specs as (G1 & G2 & G3 & G4). assert (N : forall x y, incr x -> length x = 4%nat -> ysh y = [] -> yn y = 4%nat ->
    exists p, gspl x y 3 (BcTuple []) (BcTuple []) false ExNone = Ok p).
  { intros x y Hi Hl Hs Hy. apply (C53_natural_succeeds inv_wit gbanded gdense G1 2 x y ExNone G3 (le_n 2) Hi); rewrite ?Hl, ?Hs; cbn; auto; lia. }
  assert (H3 : incr (map (fun u => 2 * u + 1) x4)) by (apply (aff_incr 2 1); [lra|apply x4_incr]).
  destruct (N x4 y4 x4_incr eq_refl eq_refl eq_refl) as [p1 E1]. destruct (N x4 y4l x4_incr eq_refl eq_refl eq_refl) as [p2 E2].
  destruct (N _ y4s H3 eq_refl eq_refl eq_refl) as [p3 E3]. exists p1, p3. split; [exact E1|]. split; [exact E3|].
  assert (D : determined 3 x4 [] []) by (left; right; reflexivity). assert (I0 : inb [] []) by constructor.
  assert (Ht : nth 0 x4 0 < 1 <= nth (length x4 - 1) x4 0) by (cbn; lra).
  destruct (C112_linear inv_wit gbanded gdense G1 3 x4 2 1 2 3 y4 (BcTuple []) (BcTuple []) ExNone p1 [] y4l (BcTuple []) (BcTuple []) ExNone p2 []
    y4s (BcTuple []) (BcTuple []) ExNone p3 [] ltac:(lia) x4_incr ltac:(cbn; lia) ltac:(lra) E1 E2 E3 I0 I0 I0) with (t := 1) as (v1 & v2 & C1 & C2 & C3); auto.
  - intros [|[|[|[|i]]]] Hi; cbn in Hi |- *; try lia; ring.
  - intros k e. unfold getslot. cbn. destruct e, k; cbn; exact I.
  - rewrite (C109_natural inv_wit gbanded gdense G1 2 x4 y4l ExNone p2 [] [1; 2] (le_n 2) x4_incr ltac:(cbn; lia) E2 I0) in C2.
    + injection C2 as C2. exists v1. split; [exact C1|]. replace 3 with (2 * 1 + 1) at 1 by ring. rewrite C3. f_equal. cbn in C2. lra.
    + cbn. lia.
    + intros [|[|[|[|i]]]] Hi; cbn in Hi |- *; try lia; ring.
    + exact Ht.
Qed.
(* the values 1, 0, 1 at -1, 0, 1: the natural cubic spline is even ... *)
Definition x3e : list R := [-1; 0; 1].
Definition y3e : yarr R := YArr [] 3 (fun _ i => nth i [1; 0; 1] 0).
Lemma x3e_incr : incr x3e.
Proof. intros [|[|[|i]]] H; cbn in *; lra || lia. Qed.
Lemma x3e_mirror : rev (map Ropp x3e) = x3e.
Proof. unfold x3e. cbn. repeat f_equal; ring. Qed.
Example C112_mirror_case : exists p, gspl x3e y3e 3 (BcTuple []) (BcTuple []) false ExNone = Ok p /\ pw_call p [] (- (1 / 2)) = pw_call p [] (1 / 2).
Proof.
  destruct gauss_meets_specs as (G1 & G2 & G3 & G4).
  destruct (C53_natural_succeeds inv_wit gbanded gdense G1 2 x3e y3e ExNone G3 (le_n 2) x3e_incr ltac:(cbn; lia) eq_refl ltac:(cbn; lia)) as [p E].
  exists p. split; [exact E|]. assert (I0 : inb [] []) by constructor. pose proof E as E'. rewrite <- x3e_mirror in E'.
  destruct (C112_mirror inv_wit gbanded gdense G1 3 x3e y3e (BcTuple []) (BcTuple []) ExNone p [] y3e (BcTuple []) (BcTuple []) ExNone p []
    ltac:(lia) x3e_incr ltac:(cbn; lia) E E' I0 I0) with (t := 1 / 2) as (v & C1 & C2).
  - intros [|[|[|i]]] Hi; cbn in Hi |- *; try lia; reflexivity.
  - intros k e. unfold getslot. cbn. destruct e, k; cbn; exact I.
  - right. split; [exists 1%nat; reflexivity|]. intros k. cbn. tauto.
  - left. right. reflexivity.
  - cbn. lra.
  - rewrite C1, C2. reflexivity.
Qed.
(* ... but the quadratic one is not: with an odd number of conditions missing, the first end gets one more (pwpoly.py:947-959, documented) *)
Example C112_even_degree : exists p, gspl x3e y3e 2 (BcTuple []) (BcTuple []) false ExNone = Ok p /\
  pw_call p [] (- (1 / 2)) = Ok (3 / 4) /\ pw_call p [] (1 / 2) = Ok (- (1 / 4)).
Proof.
  destruct gauss_meets_specs as (G1 & G2 & G3 & G4).
  destruct (proj2 (C53_cubic_succeeds inv_wit gbanded gdense G1 2 x3e y3e (BcTuple []) (BcTuple []) ExNone G3 (or_introl eq_refl) x3e_incr)) as [p E].
  { repeat split; cbn; try lia; intros b []. }
  exists p. split; [exact E|]. assert (I0 : inb [] (ysh y3e)) by constructor.
  destruct (C109_unique inv_wit gbanded gdense G1 2 x3e y3e _ _ _ p [] ltac:(lia) x3e_incr E I0) as (u & v & F & HF & C & S & _).
  destruct (a_spline_pieces 2 x3e _ u v _ F ltac:(lia) x3e_incr S) as (Q & OP & [P1 P2] & B1 & _). rewrite !C.
  assert (U0 : nth 0 u None = Some (scalar 0)). { destruct (HF (0%nat, false)) as [H _]. apply H. cbn. tauto. }
  pose proof (B1 0%nat _ U0) as S0. rewrite bget_zero in S0.
  destruct (P1 0%nat ltac:(cbn; lia)) as (L0 & V0 & V0'). destruct (P1 1%nat ltac:(cbn; lia)) as (L1 & V1 & V1').
  assert (J : tay 1 (Q 0%nat) (dxs x3e 0) = nth 1 (Q ((0 + 1) mod (length x3e - 1))%nat) 0) by (apply P2; [cbn; lia|lia|right; cbn; lia]). cbn [x3e length Nat.sub Nat.add] in J. change (1 mod 2)%nat with 1%nat in J.
  destruct (OP 0%nat ltac:(cbn; lia)) as [_ O0]. destruct (OP 1%nat ltac:(cbn; lia)) as [_ O1]. rewrite (O0 (- (1 / 2))), (O1 (1 / 2)) by (cbn; lra).
  rewrite <- !tay_0. destruct (Q 0%nat) as [|a0 [|a1 [|a2 [|]]]]; cbn in L0; try lia. destruct (Q 1%nat) as [|b0 [|b1 [|b2 [|]]]]; cbn in L1; try lia.
  cbn in *. change (dxs x3e 0) with (0 - -1) in *. change (dxs x3e 1) with (1 - 0) in *.
  split; f_equal; nra.
Qed.
