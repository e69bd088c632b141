(* What spline returns, in terms of its pieces. *)
From Coq Require Import List Arith ZArith Lia Bool Reals Lra.
From Verif Require Import Num PyBase NdArray Poly SpecPoly PolyProofs PwPoly PwBase PwCtor RSum
  SolvePer SolveProofs Gauss PropsSolve Spline SplineProofs.
Import ListNotations.
Local Open Scope R_scope.

Lemma dxpow_R (d : R) p : dxpow d p = d ^ S p.
Proof. induction p as [|p IH]; cbn [dxpow]; numR; [ring|]. rewrite IH. cbn [pow]. ring. Qed.
(* the coefficient list of a piece from scaled unknowns *)
Definition vcol (n : nat) (d y0 : R) (w : nat -> R) : list R := y0 :: map (fun p => w p * (1 / d ^ S p)) (seq 0 n).
Lemma vcol_len n d y0 w : length (vcol n d y0 w) = (n + 1)%nat.
Proof. unfold vcol. cbn [length]. rewrite map_length, seq_length. lia. Qed.
Lemma nth_vcol n d y0 w p : (p < n)%nat -> nth (S p) (vcol n d y0 w) 0 = w p / d ^ S p.
Proof. intros H. unfold vcol. cbn [nth]. rewrite (map_seq_nth (fun p => w p * (1 / d ^ S p))) by auto. unfold Rdiv. ring. Qed.
Lemma vcol_tay n d y0 w m : d <> 0 ->
  tay m (vcol n d y0 w) d * d ^ m = (if (m =? 0)%nat then y0 else 0) + rsum n (fun t => INR (binom (t + 1) m) * w t).
Proof.
  intros Hd. pose proof (tay_shifted m 0 (vcol n d y0 w) d) as T. cbn [repeat app] in T. rewrite T. clear T.
  rewrite vcol_len, Nat.add_1_r, ksum_rsum, rsum_S_l. cbn [Nat.add]. f_equal.
  - unfold vcol. cbn [nth]. rewrite bin_binom. destruct m; cbn; ring.
  - apply rsum_ext. intros t Ht. rewrite nth_vcol by auto. rewrite bin_binom, Nat.add_1_r. cbn [Nat.add].
    field. apply pow_nonzero; auto.
Qed.
Lemma spl_col_vcol n (x : list R) yf (B : arr2 R) t j :
  spl_col n x yf B t j = vcol n (dxs x j) (yf t j) (fun p => at2 B (j * n + p)%nat t).
Proof. unfold spl_col, vcol. f_equal. apply map_ext. intros p. numR. rewrite dxpow_R. reflexivity. Qed.
Lemma spl_col_len n (x : list R) yf (B : arr2 R) t j : length (spl_col n x yf B t j) = (n + 1)%nat.
Proof. rewrite spl_col_vcol. apply vcol_len. Qed.

(* pieces q < nseg of a spline of degree n through (x, y): they interpolate, and derivatives
   1..n-1 of piece q at its right end are those of the next piece at its left end *)
Definition pieces (n : nat) (x : list R) (per : bool) (y : nat -> R) (cols : nat -> list R) : Prop :=
  let nseg := (length x - 1)%nat in
  (forall q, (q < nseg)%nat -> length (cols q) = (n + 1)%nat /\ nth 0 (cols q) 0 = y q /\ tay 0 (cols q) (dxs x q) = y (q + 1)%nat) /\
  (forall q m, (q < nseg)%nat -> (1 <= m < n)%nat -> (per = true \/ q + 1 < nseg)%nat ->
     tay m (cols q) (dxs x q) = nth m (cols ((q + 1) mod nseg)%nat) 0).
(* the boundary conditions *)
Definition bcs (n : nat) (x : list R) (lo hi : list (option (nd R))) (c : nat) (cols : nat -> list R) : Prop :=
  let nseg := (length x - 1)%nat in
  (forall k b, nth_error lo k = Some (Some b) -> nth (S k) (cols 0%nat) 0 = bget b [c]) /\
  (forall k b, nth_error hi k = Some (Some b) -> tay (S k) (cols (nseg - 1)%nat) (dxs x (nseg - 1)) = bget b [c]).

Lemma specs_nth {A} (l : list (option A)) i k b d : nth_error l k = Some (Some b) ->
  exists t, (t < count_some l)%nat /\ nth t (specs i l) d = ((i + k)%nat, b).
Proof.
  revert i k; induction l as [|[a|] l IH]; intros i k H; destruct k as [|k]; cbn in H; try discriminate.
  - injection H as ->. exists 0%nat. cbn. split; [unfold count_some; cbn; lia|]. rewrite Nat.add_0_r. reflexivity.
  - destruct (IH (S i) k H) as (t & Ht & E). exists (S t). split; [unfold count_some in *; cbn; lia|]. cbn. rewrite E. f_equal. lia.
  - destruct (IH (S i) k H) as (t & Ht & E). exists t. split; [unfold count_some in *; cbn; lia|]. cbn. rewrite E. f_equal. lia.
Qed.
Lemma dxs_pos (x : list R) q : incr x -> (q < length x - 1)%nat -> 0 < dxs x q.
Proof. intros H Hq. unfold dxs. numR. specialize (H q ltac:(lia)). lra. Qed.

Lemma eqs_pieces n x per lo hi y c v : (2 <= n)%nat -> (2 <= length x)%nat -> incr x ->
  spl_eqs n x per lo hi y c v ->
  pieces n x per y (fun q => vcol n (dxs x q) (y q) (fun p => v (q * n + p)%nat)) /\
  (per = false -> (length lo <= n - 1)%nat -> (length hi <= n - 1)%nat ->
   bcs n x lo hi c (fun q => vcol n (dxs x q) (y q) (fun p => v (q * n + p)%nat))).
Proof.
  intros Hn Hx Hi (E1 & E2). set (nseg := (length x - 1)%nat) in *. split.
  - split; fold nseg.
    + intros q Hq. pose proof (dxs_pos x q Hi Hq) as Hd. split; [apply vcol_len|]. split; [reflexivity|].
      pose proof (vcol_tay n (dxs x q) (y q) (fun p => v (q * n + p)%nat) 0 (Rgt_not_eq _ _ Hd)) as T. cbn [pow Nat.eqb] in T. rewrite Rmult_1_r in T.
      rewrite T. specialize (E1 q 0%nat ltac:(lia) Hq ltac:(auto)). unfold eqval in E1. cbn [Nat.eqb] in E1. lra.
    + intros q m Hq Hm Hp. pose proof (dxs_pos x q Hi Hq) as Hd.
      set (q' := ((q + 1) mod nseg)%nat).
      assert (Hq' : (q' < nseg)%nat) by (apply Nat.mod_upper_bound; unfold nseg; lia).
      pose proof (dxs_pos x q' Hi Hq') as Hd'.
      pose proof (vcol_tay n (dxs x q) (y q) (fun p => v (q * n + p)%nat) m (Rgt_not_eq _ _ Hd)) as T.
      specialize (E1 q m ltac:(lia) Hq ltac:(tauto)). unfold eqval in E1. fold nseg in E1. fold q' in E1.
      destruct (Nat.eqb_spec m 0); [lia|]. rewrite Rplus_0_l in T.
      destruct m as [|m']; [lia|]. rewrite nth_vcol by lia. replace (S m' - 1)%nat with m' in E1 by lia.
      apply (Rmult_eq_reg_r (dxs x q ^ S m')); [|apply pow_nonzero; lra]. rewrite T.
      unfold dx_ratio in E1. fold nseg in E1. fold q' in E1. revert E1. numR. intros E1.
      unfold Rdiv in E1. rewrite Rpow_mult_distr, pow_inv in E1. unfold Rdiv. lra.
  - intros Hp Ll Lh. destruct (E2 Hp) as [E3 E4]. split; fold nseg.
    + intros k b Hk. destruct (specs_nth lo 0 k b bdef Hk) as (t & Ht & Et). specialize (E3 t Ht).
      unfold mi_at, bval in E3. rewrite Et in E3. cbn [fst snd Nat.add] in E3.
      assert (k < length lo)%nat by (apply nth_error_Some; congruence).
      rewrite nth_vcol by lia. cbn [Nat.mul Nat.add]. rewrite E3, dxpow_R. 
      pose proof (dxs_pos x 0 Hi ltac:(lia)). field. apply pow_nonzero. lra.
    + intros k b Hk. destruct (specs_nth hi 0 k b bdef Hk) as (t & Ht & Et). specialize (E4 t Ht).
      unfold mi_at, bval in E4. rewrite Et in E4. cbn [fst snd Nat.add] in E4. fold nseg in E4.
      pose proof (dxs_pos x (nseg - 1) Hi ltac:(unfold nseg; lia)) as Hd.
      pose proof (vcol_tay n (dxs x (nseg - 1)) (y (nseg - 1)%nat) (fun p => v ((nseg - 1) * n + p)%nat) (S k) (Rgt_not_eq _ _ Hd)) as T.
      cbn [Nat.eqb] in T. rewrite Rplus_0_l in T. replace (k + 1)%nat with (S k) in E4 by lia. rewrite E4, dxpow_R in T.
      apply (Rmult_eq_reg_r (dxs x (nseg - 1) ^ S k)); [|apply pow_nonzero; lra]. exact T.
Qed.

(* --- filling in the default boundary conditions ------------------------------------ *)
(* the places (index, at hi?) in the order in which they are considered *)
Fixpoint slots (m : nat) : list (nat * bool) :=
  match m with O => [] | S i => (i, false) :: (i, true) :: slots i end.
Definition getslot (lo hi : list (option (nd R))) (s : nat * bool) : option (nd R) :=
  nth (fst s) (if snd s then hi else lo) None.
Definition free_slots (lo hi : list (option (nd R))) (l : list (nat * bool)) : list (nat * bool) :=
  filter (fun s => negb (is_some (getslot lo hi s))) l.
Definition zero_bc : option (nd R) := Some (scalar 0).

Lemma slots_lt m s : In s (slots m) -> (fst s < m)%nat.
Proof. induction m as [|m IH]; cbn; [tauto|]. intros [<-|[<-|H]]; cbn; try lia. specialize (IH H). lia. Qed.
Lemma free_ext lo hi lo' hi' l : (forall s, In s l -> getslot lo' hi' s = getslot lo hi s) ->
  free_slots lo' hi' l = free_slots lo hi l.
Proof.
  intros H. unfold free_slots. induction l as [|s l IH]; cbn; auto. rewrite (H s) by (left; auto).
  rewrite IH; auto. intros s' Hs'. apply H. right; auto.
Qed.
Lemma count_upd (l : list (option (nd R))) i z : (i < length l)%nat -> nth i l None = None ->
  count_some (upd i (Some z) l) = S (count_some l).
Proof.
  unfold count_some. revert i; induction l as [|a l IH]; intros i Hi E; cbn in Hi; [lia|]. destruct i; cbn in *.
  - subst a. reflexivity.
  - destruct a; cbn; rewrite IH by (auto; lia); reflexivity.
Qed.
Lemma fill_zero i1 (lo hi : list (option (nd R))) nlo nhi : fill i1 lo hi 0 nlo nhi = Ok (lo, hi, nlo, nhi).
Proof. destruct i1; reflexivity. Qed.
Lemma firstn_in_app {A} m (l l' : list A) a : In a (firstn m l) -> In a (l ++ l').
Proof. revert l; induction m as [|m IH]; intros [|b l]; cbn; try tauto. intros [->|H]; auto. Qed.

Lemma fill_ok i1 : forall (lo hi : list (option (nd R))) m nlo nhi, (i1 <= length lo)%nat -> (i1 <= length hi)%nat ->
  (m <= length (free_slots lo hi (slots i1)))%nat ->
  exists lo' hi' nlo' nhi', fill i1 lo hi (Z.of_nat m) nlo nhi = Ok (lo', hi', nlo', nhi') /\
    length lo' = length lo /\ length hi' = length hi /\
    (forall s, (In s (firstn m (free_slots lo hi (slots i1))) -> getslot lo' hi' s = zero_bc) /\
               (~ In s (firstn m (free_slots lo hi (slots i1))) -> getslot lo' hi' s = getslot lo hi s)) /\
    (nlo' + count_some lo = nlo + count_some lo')%nat /\ (nhi' + count_some hi = nhi + count_some hi')%nat /\
    (nlo' + nhi' = nlo + nhi + m)%nat.
Proof.
  induction i1 as [|i IH]; intros lo hi m nlo nhi Ll Lh Hm.
  - cbn in Hm. assert (m = 0)%nat as -> by lia. exists lo, hi, nlo, nhi. cbn. intuition.
  - destruct (Nat.eq_dec m 0) as [->|Hm0].
    { exists lo, hi, nlo, nhi. split; [apply fill_zero|]. cbn [firstn]. intuition; try lia. contradiction. }
    assert (NI : forall side l0 h0, ~ In (i, side) (firstn (length l0) (free_slots l0 h0 (slots i))) /\ ~ In (i, side) (free_slots l0 h0 (slots i))).
    { intros side l0 h0. assert (H : ~ In (i, side) (free_slots l0 h0 (slots i))).
      { intros H. apply filter_In in H. destruct H as [H _]. apply slots_lt in H. cbn in H. lia. }
      split; auto. intros H'. apply H. apply (firstn_in_app _ _ []) in H'. rewrite app_nil_r in H'. exact H'. }
    assert (NF : forall k side l0 h0, ~ In (i, side) (firstn k (free_slots l0 h0 (slots i)))).
    { intros k side l0 h0 H'. apply (firstn_in_app _ _ []) in H'. rewrite app_nil_r in H'. destruct (NI side l0 h0) as [_ N]. auto. }
    assert (FL : forall z, free_slots (upd i z lo) hi (slots i) = free_slots lo hi (slots i)).
    { intros z. apply free_ext. intros [j sd] Hs. apply slots_lt in Hs. cbn in Hs. unfold getslot. cbn [fst snd].
      destruct sd; auto. rewrite nth_upd_neq by lia. reflexivity. }
    assert (FH : forall z, free_slots lo (upd i z hi) (slots i) = free_slots lo hi (slots i)).
    { intros z. apply free_ext. intros [j sd] Hs. apply slots_lt in Hs. cbn in Hs. unfold getslot. cbn [fst snd].
      destruct sd; auto. rewrite nth_upd_neq by lia. reflexivity. }
    assert (FLH : forall z, free_slots (upd i z lo) (upd i z hi) (slots i) = free_slots lo hi (slots i)).
    { intros z. apply free_ext. intros [j sd] Hs. apply slots_lt in Hs. cbn in Hs. unfold getslot. cbn [fst snd].
      destruct sd; rewrite nth_upd_neq by lia; reflexivity. }
    destruct m as [|m]; [lia|]. cbn [fill]. destruct (Z.eqb_spec (Z.of_nat (S m)) 0); [lia|].
    cbn [slots free_slots filter] in Hm |- *.
    fold (free_slots lo hi (slots i)) in *.
    change (getslot lo hi (i, false)) with (nth i lo None) in *. change (getslot lo hi (i, true)) with (nth i hi None) in *. numR.
    destruct (nth i lo None) as [bl|] eqn:El; destruct (nth i hi None) as [bh|] eqn:Eh; cbn [is_some negb] in *.
    + (* neither free *)
      replace (Z.of_nat (S m) =? 0)%Z with false by (symmetry; apply Z.eqb_neq; lia).
      destruct (IH lo hi (S m) nlo nhi) as (lo' & hi' & nlo' & nhi' & E & L1 & L2 & G & C1 & C2 & C3); [lia|lia|exact Hm|].
      exists lo', hi', nlo', nhi'. split; [exact E|]. auto 10.
    + (* hi free *)
      replace (Z.of_nat (S m) =? 0)%Z with false by (symmetry; apply Z.eqb_neq; lia).
      replace (Z.of_nat (S m) - 1)%Z with (Z.of_nat m) by lia. cbn [length] in Hm.
      destruct (IH lo (upd i (Some (scalar 0)) hi) m nlo (S nhi)) as (lo' & hi' & nlo' & nhi' & E & L1 & L2 & G & C1 & C2 & C3);
        [lia|rewrite upd_length; lia|rewrite FH; lia|].
      rewrite FH in G. rewrite upd_length in L2. rewrite count_upd in C2 by (auto; lia).
      exists lo', hi', nlo', nhi'. split; [exact E|]. split; [auto|]. split; [auto|]. split; [|lia].
      intros s. cbn [firstn In]. destruct (G s) as [Ga Gb]. split.
      * intros [<-|H]; auto. rewrite Gb by apply NF. unfold getslot; cbn [fst snd]. rewrite nth_upd_eq by lia. reflexivity.
      * intros H. rewrite Gb by tauto. unfold getslot. destruct s as [j [|]]; cbn [fst snd]; auto.
        rewrite nth_upd_neq; auto. intros ->. apply H. left; auto.
    + (* lo free *)
      replace (Z.of_nat (S m) - 1)%Z with (Z.of_nat m) by lia. cbn [length] in Hm.
      destruct (IH (upd i (Some (scalar 0)) lo) hi m (S nlo) nhi) as (lo' & hi' & nlo' & nhi' & E & L1 & L2 & G & C1 & C2 & C3);
        [rewrite upd_length; lia|lia|rewrite FL; lia|].
      rewrite FL in G. rewrite upd_length in L1. rewrite count_upd in C1 by (auto; lia).
      exists lo', hi', nlo', nhi'. split.
      { destruct (Z.of_nat m =? 0)%Z; exact E. }
      split; [auto|]. split; [auto|]. split; [|lia].
      intros s. cbn [firstn In]. destruct (G s) as [Ga Gb]. split.
      * intros [<-|H]; auto. rewrite Gb by apply NF. unfold getslot; cbn [fst snd]. rewrite nth_upd_eq by lia. reflexivity.
      * intros H. rewrite Gb by tauto. unfold getslot. destruct s as [j [|]]; cbn [fst snd]; auto.
        rewrite nth_upd_neq; auto. intros ->. apply H. left; auto.
    + (* both free *)
      replace (Z.of_nat (S m) - 1)%Z with (Z.of_nat m) by lia. cbn [length] in Hm.
      destruct m as [|m].
      * cbn [Z.of_nat Z.eqb]. rewrite fill_zero. eexists _, _, _, _. split; [reflexivity|].
        rewrite upd_length, count_upd by (auto; lia). split; [auto|]. split; [auto|]. split; [|lia].
        intros s. cbn [firstn In]. split.
        -- intros [<-|[]]. unfold getslot; cbn [fst snd]. rewrite nth_upd_eq by lia. reflexivity.
        -- intros H. unfold getslot. destruct s as [j [|]]; cbn [fst snd]; auto. rewrite nth_upd_neq; auto. intros ->. apply H; left; auto.
      * replace (Z.of_nat (S m) =? 0)%Z with false by (symmetry; apply Z.eqb_neq; lia).
        replace (Z.of_nat (S m) - 1)%Z with (Z.of_nat m) by lia.
        destruct (IH (upd i (Some (scalar 0)) lo) (upd i (Some (scalar 0)) hi) m (S nlo) (S nhi)) as (lo' & hi' & nlo' & nhi' & E & L1 & L2 & G & C1 & C2 & C3);
          [rewrite upd_length; lia|rewrite upd_length; lia|rewrite FLH; lia|].
        rewrite FLH in G. rewrite upd_length in L1, L2. rewrite count_upd in C1, C2 by (auto; lia).
        exists lo', hi', nlo', nhi'. split; [exact E|]. split; [auto|]. split; [auto|]. split; [|lia].
        intros s. cbn [firstn In]. destruct (G s) as [Ga Gb]. split.
        -- intros [<-|[<-|H]]; auto; rewrite Gb by apply NF; unfold getslot; cbn [fst snd]; rewrite nth_upd_eq by lia; reflexivity.
        -- intros H. rewrite Gb by tauto. unfold getslot. destruct s as [j [|]]; cbn [fst snd]; rewrite nth_upd_neq; auto; intros ->; apply H; auto.
Qed.
Lemma fill_over i1 : forall (lo hi : list (option (nd R))) m nlo nhi, (m < 0)%Z -> fill i1 lo hi m nlo nhi = Err IndexError.
Proof.
  induction i1 as [|i IH]; intros lo hi m nlo nhi Hm; cbn [fill]; destruct (Z.eqb_spec m 0); try lia; auto.
  destruct (nth i lo None); destruct (nth i hi None); 
    repeat match goal with |- context [(?a =? 0)%Z] => destruct (Z.eqb_spec a 0) end; try lia; apply IH; lia.
Qed.
Lemma free_count m (lo hi : list (option (nd R))) : (m <= length lo)%nat -> (m <= length hi)%nat ->
  (length (free_slots lo hi (slots m)) + count_some (firstn m lo) + count_some (firstn m hi) = 2 * m)%nat.
Proof.
  induction m as [|m IH]; intros L1 L2; [reflexivity|]. specialize (IH ltac:(lia) ltac:(lia)).
  assert (E : forall l : list (option (nd R)), (S m <= length l)%nat ->
    count_some (firstn (S m) l) = (count_some (firstn m l) + (if is_some (nth m l None) then 1 else 0))%nat).
  { intros l Hl. assert (H : firstn (S m) l = (firstn m l ++ [nth m l None])%list).
    { clear -Hl. revert l Hl; induction m as [|m IH]; intros [|a l] Hl; cbn in Hl; try lia; [reflexivity|].
      cbn [firstn nth app]. f_equal. apply IH. lia. }
    rewrite H, count_app. f_equal. unfold count_some. cbn. destruct (nth m l None); reflexivity. }
  rewrite !E by lia. cbn [slots free_slots filter]. fold (free_slots lo hi (slots m)).
  change (getslot lo hi (m, false)) with (nth m lo None). change (getslot lo hi (m, true)) with (nth m hi None).
  destruct (nth m lo None), (nth m hi None); cbn [is_some negb length]; lia.
Qed.

(* which conditions the code imposes: the given ones, and zero for the first unspecified ones *)
Definition filled (n : nat) (lo hi lo' hi' : list (option (nd R))) : Prop :=
  let k := (n - 1 - (count_some lo + count_some hi))%nat in
  let new := firstn k (free_slots lo hi (slots (n - 1))) in
  forall s, (In s new -> getslot lo' hi' s = zero_bc) /\ (~ In s new -> getslot lo' hi' s = getslot lo hi s).

Lemma nth_pad (l : list (option (nd R))) m i : nth i (l ++ repeat None m) None = nth i l None.
Proof.
  destruct (Nat.lt_ge_cases i (length l)).
  - apply app_nth1; auto.
  - rewrite app_nth2, nth_repeat, nth_overflow; auto.
Qed.
Lemma count_pad (l : list (option (nd R))) m : count_some (l ++ repeat None m) = count_some l.
Proof. rewrite count_app. replace (count_some (repeat None m)) with 0%nat; [lia|]. induction m; auto. Qed.
Lemma getslot_pad lo hi a b s : getslot (lo ++ repeat None a) (hi ++ repeat None b) s = getslot lo hi s.
Proof. unfold getslot. destruct (snd s); apply nth_pad. Qed.

Lemma spl_bcs_ok n (lo hi : list (option (nd R))) : (length lo <= n - 1)%nat -> (length hi <= n - 1)%nat ->
  (count_some lo + count_some hi <= n - 1)%nat ->
  exists lo' hi' nhi, spl_bcs n false lo hi = Ok (lo', hi', count_some lo', nhi) /\
    length lo' = (n - 1)%nat /\ (length hi' <= n - 1)%nat /\ (count_some lo' + count_some hi' = n - 1)%nat /\
    filled n lo hi lo' hi'.
Proof.
  intros Ll Lh Hc. unfold spl_bcs. rewrite andb_true_r, count_pad.
  set (lo1 := (lo ++ repeat None (n - 1 - length lo))%list). set (hi1 := (hi ++ repeat None (n - 1 - length hi))%list).
  assert (L1 : length lo1 = (n - 1)%nat) by (unfold lo1; rewrite app_length, repeat_length; lia).
  assert (L2 : length hi1 = (n - 1)%nat) by (unfold hi1; rewrite app_length, repeat_length; lia).
  assert (C1 : count_some lo1 = count_some lo) by apply count_pad.
  assert (C2 : count_some hi1 = count_some hi) by apply count_pad.
  destruct (Z.eqb_spec (Z.of_nat (n - 1) - Z.of_nat (count_some lo + count_some hi)) 0) as [E|E]; cbn [negb].
  - exists lo1, hi, (count_some hi). rewrite C1. split; [reflexivity|]. split; [auto|]. split; [auto|]. split; [lia|].
    intros s. replace (n - 1 - (count_some lo + count_some hi))%nat with 0%nat by lia. cbn [firstn In]. split; [tauto|].
    intros _. unfold lo1. rewrite <- (getslot_pad lo hi (n - 1 - length lo) 0). cbn [repeat]. rewrite app_nil_r. reflexivity.
  - assert (F : free_slots lo1 hi1 (slots (n - 1)) = free_slots lo hi (slots (n - 1))).
    { apply free_ext. intros s _. apply getslot_pad. }
    assert (FC : (length (free_slots lo1 hi1 (slots (n - 1))) + count_some lo1 + count_some hi1 = 2 * (n - 1))%nat).
    { pose proof (free_count (n - 1) lo1 hi1) as H. rewrite !firstn_all2 in H by lia. apply H; lia. }
    destruct (fill_ok (n - 1) lo1 hi1 (n - 1 - (count_some lo + count_some hi)) (count_some lo) (count_some hi))
      as (lo' & hi' & nlo' & nhi' & E1 & L1' & L2' & G & Ca & Cb & Cc); [lia|lia|lia|].
    replace (Z.of_nat (n - 1) - Z.of_nat (count_some lo + count_some hi))%Z
      with (Z.of_nat (n - 1 - (count_some lo + count_some hi))) by lia.
    rewrite E1. exists lo', hi', nhi'. assert (nlo' = count_some lo') as -> by lia. split; [reflexivity|].
    split; [lia|]. split; [lia|]. split; [lia|].
    intros s. rewrite F in G. destruct (G s) as [Ga Gb]. split; [auto|]. intros H. rewrite Gb by auto. apply getslot_pad.
Qed.
Lemma spl_bcs_over n (lo hi : list (option (nd R))) : (n - 1 < count_some lo + count_some hi)%nat ->
  spl_bcs n false lo hi = Err IndexError.
Proof.
  intros Hc. unfold spl_bcs. rewrite andb_true_r, count_pad.
  destruct (Z.eqb_spec (Z.of_nat (n - 1) - Z.of_nat (count_some lo + count_some hi)) 0) as [E|E]; [lia|]. cbn [negb].
  apply fill_over. lia.
Qed.

(* --- the returned object --------------------------------------------------------------- *)
(* p is the piecewise polynomial with pieces cols, extrapolated with degrees e and f *)
Definition spl_result (n : nat) (x : list R) (sh : list nat) (e f : Z) (cols : list nat -> nat -> list R) (p : pwpoly R) : Prop :=
  let nseg := (length x - 1)%nat in
  pw_wf p /\ pcl p = Pw /\ pxk p = x /\ csh (pc p) = sh /\ cn (pc p) = (n + 1)%nat /\ ck (pc p) = S (length x) /\
  forall comp, inb comp sh ->
    ccol (pc p) comp 0 = zero_tail e (cols comp 0%nat) /\
    (forall q, (q < nseg)%nat -> ccol (pc p) comp (S q) = cols comp q) /\
    ccol (pc p) comp (length x) = zero_tail f (pshift (cols comp (nseg - 1)%nat) (dxs x (nseg - 1))).
Lemma zero_tail_len e (c : list R) : length (zero_tail e c) = length c.
Proof.
  unfold zero_tail. set (s := Z.to_nat _). rewrite app_length, repeat_length, firstn_length.
  assert (s <= length c)%nat; [|lia]. unfold s, slice_adjust. cbn [Z.ltb Z.compare].
  destruct (Z.ltb_spec (e + 1) 0); [destruct (Z.ltb_spec (e + 1 + Z.of_nat (length c)) 0); lia|].
  destruct (Z.ltb_spec (Z.of_nat (length c)) (e + 1)); lia.
Qed.
Lemma filled_bfit nc n lo hi lo' hi' : bfit nc lo -> bfit nc hi -> filled n lo hi lo' hi' -> bfit nc lo' /\ bfit nc hi'.
Proof.
  intros Fl Fh HF. assert (G : forall s b, getslot lo' hi' s = Some b -> bto (shp b) [nc] = true).
  { intros s b E. destruct (HF s) as [H1 H2].
    destruct (in_dec (fun a b : nat * bool => ltac:(decide equality; [apply Bool.bool_dec|apply Nat.eq_dec]) : {a = b} + {a <> b}) s
      (firstn (n - 1 - (count_some lo + count_some hi)) (free_slots lo hi (slots (n - 1))))) as [I|I].
    - rewrite (H1 I) in E. injection E as <-. reflexivity.
    - rewrite (H2 I) in E. unfold getslot in E. destruct (snd s).
      + apply Fh. rewrite <- E. apply nth_In. destruct (Nat.lt_ge_cases (fst s) (length hi)) as [|L]; auto. rewrite nth_overflow in E by lia. discriminate.
      + apply Fl. rewrite <- E. apply nth_In. destruct (Nat.lt_ge_cases (fst s) (length lo)) as [|L]; auto. rewrite nth_overflow in E by lia. discriminate. }
  split; intros b Hb; apply (In_nth _ _ None) in Hb; destruct Hb as (i & Hi & E).
  - apply (G (i, false)). exact E.
  - apply (G (i, true)). exact E.
Qed.
Lemma incr_ends (x : list R) : incr x -> (2 <= length x)%nat -> nltb (nth (length x - 1) x n0) (nth 0 x n0) = false.
Proof.
  intros Hi Hx. numR. destruct (Rltb_spec (nth (length x - 1) x 0) (nth 0 x 0)) as [H|H]; auto.
  pose proof (incr_lt x 0 (length x - 1) Hi) as H0. specialize (H0 ltac:(lia)). lra.
Qed.
Lemma size_snoc_pos sh nk : (0 < nk)%nat -> size sh <> 0%nat -> (size (sh ++ [nk]) =? 0)%nat = false.
Proof. intros H1 H2. apply Nat.eqb_neq. rewrite size_snoc. nia. Qed.

Lemma spline_core inv sb s n x y lo hi extrap e f :
  banded_spec sb -> (2 <= n)%nat -> (2 <= length x)%nat -> incr x -> yn y = length x -> size (ysh y) <> 0%nat ->
  let l := bc_tuple lo in let h := bc_tuple hi in
  (length l <= n - 1)%nat -> (length h <= n - 1)%nat -> (count_some l + count_some h <= n - 1)%nat ->
  bfit (size (ysh y)) l -> bfit (size (ysh y)) h -> ex_pair n extrap = (e, f) ->
  exists lo' hi', filled n l h lo' hi' /\ length lo' = (n - 1)%nat /\ (length hi' <= n - 1)%nat /\
    (count_some lo' + count_some hi' = n - 1)%nat /\
    (forall p, spline inv sb s x y n lo hi false extrap = Ok p ->
      exists cols, spl_result n x (ysh y) e f cols p /\
        forall comp, inb comp (ysh y) -> pieces n x false (yval y comp) (cols comp) /\
          bcs n x lo' hi' (ravel (ysh y) comp) (cols comp)) /\
    (banded_complete sb -> (forall v, spl_hom n x false lo' hi' v -> forall i, (i < (length x - 1) * n)%nat -> v i = 0) ->
      exists p, spline inv sb s x y n lo hi false extrap = Ok p).
Proof.
  intros Hsb Hn Hx Hi Hyn Hs l h Ll Lh Hc Fl Fh Hex.
  destruct (spl_bcs_ok n l h Ll Lh Hc) as (lo' & hi' & nhi & E1 & L1 & L2 & C1 & HF).
  destruct (filled_bfit _ _ _ _ _ _ Fl Fh HF) as [Fl' Fh'].
  exists lo', hi'. split; [exact HF|]. split; [exact L1|]. split; [exact L2|]. split; [exact C1|].
  set (yf := fun t j => yval y (unravel (ysh y) t) j).
  destruct (spl_solve_system sb s n x (size (ysh y)) yf lo' hi' Hn Hx L1 L2 C1 Fl' Fh') as (ab & b & E2 & R1 & R2 & R3 & R4 & R5).
  assert (Cw : forall B, carr_wf (CArr (n + 1) (ysh y) (length x + 1) (fun comp i =>
           let c := if (i =? 0)%nat then zero_tail e
             (if (i =? 0)%nat then spl_col n x yf B (ravel (ysh y) comp) 0
              else if (i =? length x)%nat then pshift (spl_col n x yf B (ravel (ysh y) comp) (length x - 2)) (dxs x (length x - 2))
              else spl_col n x yf B (ravel (ysh y) comp) (i - 1)) else
             (if (i =? 0)%nat then spl_col n x yf B (ravel (ysh y) comp) 0
              else if (i =? length x)%nat then pshift (spl_col n x yf B (ravel (ysh y) comp) (length x - 2)) (dxs x (length x - 2))
              else spl_col n x yf B (ravel (ysh y) comp) (i - 1)) in
           if (i =? length x)%nat then zero_tail f c else c))).
  { intros B. split; [cbn; lia|]. cbn [cn csh ck ccol]. intros comp i Hb Hlt. cbv zeta.
    destruct (i =? 0)%nat, (i =? length x)%nat; rewrite ?zero_tail_len; rewrite ?pshift_length by discriminate; rewrite ?spl_col_len; reflexivity. }
  assert (EQ : spline inv sb s x y n lo hi false extrap =
     (let! B := sb (1 + count_some lo')%nat (n - 1 - count_some lo')%nat ab b in
      new Pw x (CArr (n + 1) (ysh y) (length x + 1) (fun comp i =>
           let c := if (i =? 0)%nat then zero_tail e
             (if (i =? 0)%nat then spl_col n x yf B (ravel (ysh y) comp) 0
              else if (i =? length x)%nat then pshift (spl_col n x yf B (ravel (ysh y) comp) (length x - 2)) (dxs x (length x - 2))
              else spl_col n x yf B (ravel (ysh y) comp) (i - 1)) else
             (if (i =? 0)%nat then spl_col n x yf B (ravel (ysh y) comp) 0
              else if (i =? length x)%nat then pshift (spl_col n x yf B (ravel (ysh y) comp) (length x - 2)) (dxs x (length x - 2))
              else spl_col n x yf B (ravel (ysh y) comp) (i - 1)) in
           if (i =? length x)%nat then zero_tail f c else c)))%res).
  { unfold spline. rewrite Hyn, size_snoc_pos by (auto; lia). rewrite Nat.eqb_refl, incr_ends by auto. rewrite Hex.
    destruct (Nat.eqb_spec (length x) 0); [lia|]. destruct (Nat.ltb_spec (length x) 2); [lia|]. cbn [orb negb andb].
    fold l h. destruct (Nat.leb_spec n (length l)); [exfalso; lia|]. destruct (Nat.leb_spec n (length h)); [exfalso; lia|]. cbn [orb].
    destruct (Nat.ltb_spec n 2); [exfalso; lia|]. rewrite E1. cbn [bind]. fold yf. rewrite E2. reflexivity. }
  rewrite EQ. clear EQ. split.
  - intros p E. destruct (sb _ _ ab b) as [B|] eqn:EB; [|discriminate]. cbn [bind] in E.
    assert (SN : nr ab = (1 + count_some lo' + (n - 1 - count_some lo') + 1)%nat) by (rewrite R1; clear -C1 Hn; lia).
    assert (SB := Hsb _ _ _ _ _ SN (eq_trans R3 (eq_sym R2)) EB).
    destruct SB as (B1 & B2 & B3).
    rewrite R2 in B1, B3. rewrite R4 in B2, B3.
    destruct (rawinit_short Pw x _ (Cw B)) as (r & Er & W & P1 & P2 & P3 & P4 & P5 & _ & P6); auto; try (cbn; lia); try discriminate.
    assert (E' : Ok r = Ok p) by (rewrite <- Er; exact E). injection E' as ->. specialize (P6 eq_refl).
    exists (fun comp q => vcol n (dxs x q) (yval y comp q) (fun t => at2 B (q * n + t)%nat (ravel (ysh y) comp))).
    assert (RV : forall comp, inb comp (ysh y) -> (ravel (ysh y) comp < size (ysh y))%nat /\ unravel (ysh y) (ravel (ysh y) comp) = comp).
    { intros comp Hb. split; [apply ravel_lt; auto|apply unravel_ravel; auto]. }
    assert (SC : forall comp q, inb comp (ysh y) -> spl_col n x yf B (ravel (ysh y) comp) q =
      vcol n (dxs x q) (yval y comp q) (fun t => at2 B (q * n + t)%nat (ravel (ysh y) comp))).
    { intros comp q Hb. rewrite spl_col_vcol. unfold yf at 1. destruct (RV comp Hb) as [_ ->]. reflexivity. }
    split.
    + split; [exact W|]. split; [exact P1|]. split; [exact P2|]. split; [exact P3|]. split; [exact P5|]. split; [rewrite P4; cbn; lia|].
      intros comp Hb. rewrite P6. cbn [ccol]. cbv zeta. split; [|split].
      * rewrite (Nat.eqb_refl 0). destruct (Nat.eqb_spec 0 (length x)); [lia|]. rewrite SC by auto. reflexivity.
      * intros q Hq. destruct (Nat.eqb_spec (S q) 0); [lia|]. destruct (Nat.eqb_spec (S q) (length x)); [lia|].
        replace (S q - 1)%nat with q by lia. apply SC; auto.
      * rewrite Nat.eqb_refl. destruct (Nat.eqb_spec (length x) 0); [lia|]. rewrite SC by auto.
        replace (length x - 2)%nat with (length x - 1 - 1)%nat by lia. reflexivity.
    + intros comp Hb. destruct (RV comp Hb) as [RB RU].
      destruct (R5 (fun j => at2 B j (ravel (ysh y) comp)) _ RB) as [[R6 _] _].
      assert (SE : spl_eqs n x false lo' hi' (yf (ravel (ysh y) comp)) (ravel (ysh y) comp) (fun j => at2 B j (ravel (ysh y) comp))).
      { apply R6. intros i Hi'. apply B3; auto. }
      replace (yf (ravel (ysh y) comp)) with (yval y comp) in SE by (unfold yf; rewrite RU; reflexivity).
      destruct (eqs_pieces n x false lo' hi' _ _ _ Hn Hx Hi SE) as [Q1 Q2]. split; [exact Q1|]. apply Q2; auto; lia.
  - intros Hcomp Hns. destruct (Hcomp (1 + count_some lo')%nat (n - 1 - count_some lo')%nat ab b) as [B EB].
    + rewrite R1. lia.
    + rewrite R2, R3. reflexivity.
    + rewrite R2. intros v Hv. destruct (size (ysh y)) as [|sz] eqn:Es; [lia|].
      destruct (R5 v 0%nat ltac:(lia)) as [_ [R6 _]]. apply Hns. apply R6. exact Hv.
    + rewrite EB. cbn [bind].
      destruct (rawinit_short Pw x _ (Cw B)) as (r & Er & _); auto; try (cbn; lia); try discriminate.
      exists r. exact Er.
Qed.

(* --- the periodic system ------------------------------------------------------------------ *)
(* the last equations of the band part *)
Lemma eq_last n (x : list R) v m : (2 <= n)%nat -> (2 <= length x)%nat -> (1 <= m < n)%nat ->
  let nseg := (length x - 1)%nat in
  adsum n (nseg * n) (at2 (spl_ab n x)) v (n - 1 + ((nseg - 1) * n + m)) =
  rsum n (fun t => INR (binom (t + 1) m) * v ((nseg - 1) * n + t)%nat).
Proof.
  intros Hn Hx Hm nseg. pose proof (nun_ge n x Hn Hx) as HN. fold nseg in HN. set (nun := (nseg * n)%nat) in *.
  assert (Hq : (1 <= nseg)%nat) by (unfold nseg; lia). set (q := (nseg - 1)%nat).
  assert (Nu : (nun = q * n + n)%nat) by (unfold nun, q; nia).
  unfold adsum. rewrite Nat.add_1_r, rsum_S_l. change (0 <=? n - 1 + (q * n + m))%nat with true. cbn [andb]. rewrite Nat.sub_0_r.
  destruct (Nat.ltb_spec (n - 1 + (q * n + m)) nun); [lia|]. rewrite Rplus_0_l, rsum_rev.
  apply reg_sum; [lia|]. intros a Ha. cbv zeta.
  destruct (Nat.leb_spec (S (n - 1 - a)) (n - 1 + (q * n + m))) as [H1|H1]; [|lia]. cbn [andb].
  replace (n - 1 + (q * n + m) - S (n - 1 - a))%nat with (q * n + (m + a - 1))%nat by lia.
  destruct (Nat.ltb_spec (q * n + (m + a - 1)) nun) as [H2|H2].
  - destruct (Nat.ltb_spec (m + a - 1) n) as [H3|H3]; [|lia]. rewrite ab_S by lia.
    replace (n - 1 - (n - 1 - a))%nat with a by lia. destruct (mod_qm n q (m + a - 1) H3) as [-> _].
    assert (Z : ((a =? 0) && (m + a - 1 =? n - 1))%nat = false).
    { destruct (Nat.eqb_spec a 0); cbn [andb]; auto. destruct (Nat.eqb_spec (m + a - 1) (n - 1)); auto. lia. }
    rewrite Z. replace (S (m + a - 1)) with (m + a)%nat by lia. rewrite binom_sym. reflexivity.
  - destruct (Nat.ltb_spec (m + a - 1) n) as [H3|H3]; [lia|reflexivity].
Qed.
(* zero data: the band part of the periodic system *)
Definition band_hom (n : nat) (x : list R) (v : nat -> R) : Prop :=
  let nseg := (length x - 1)%nat in
  (forall q m, (m < n)%nat -> (q < nseg)%nat -> (m = 0 \/ q + 1 < nseg)%nat -> eqval n x v q m = 0) /\
  (forall m, (1 <= m < n)%nat -> rsum n (fun t => INR (binom (t + 1) m) * v ((nseg - 1) * n + t)%nat) = 0).
Lemma per_band_hom n (x : list R) v : (2 <= n)%nat -> (2 <= length x)%nat ->
  let nun := ((length x - 1) * n)%nat in
  (forall i, (i < nun)%nat -> rsum nun (fun j => band 1 (n - 1) (spl_ab n x) i j * v j) = 0) -> band_hom n x v.
Proof.
  intros Hn Hx nun H. pose proof (nun_ge n x Hn Hx) as HN. fold nun in HN.
  assert (BA : forall i, (i < nun)%nat -> adsum n nun (at2 (spl_ab n x)) v (n - 1 + i) = 0).
  { intros i Hi. rewrite <- (H i Hi). replace n with (1 + (n - 1))%nat at 1 by lia. symmetry.
    exact (band_adsum 1 (n - 1) (spl_ab n x) v i Hi). }
  split.
  - intros q m Hm Hq Hc. rewrite <- (eq_nonper n x Hn Hx (at2 (spl_ab n x)) v q m Hm).
    + apply BA. unfold nun. nia.
    + destruct Hc; nia.
    + reflexivity.
  - intros m Hm. rewrite <- (eq_last n x v m Hn Hx Hm). apply BA. unfold nun. nia.
Qed.

Definition y_per (x : list R) (y : nat -> R) (i : nat) : R := y (if (i =? length x - 1)%nat then 0%nat else i).
Definition per_result (n : nat) (x : list R) (sh : list nat) (cols : list nat -> nat -> list R) (p : pwpoly R) : Prop :=
  pw_wf p /\ pcl p = Per /\ pxk p = x /\ csh (pc p) = sh /\ cn (pc p) = (n + 1)%nat /\ ck (pc p) = S (length x) /\
  forall comp, inb comp sh -> forall q, (q < length x - 1)%nat -> ccol (pc p) comp (S q) = cols comp q.

Lemma spline_per_core inv sb s n x y :
  banded_spec sb -> dense_spec s -> (2 <= n)%nat -> (2 <= length x)%nat -> incr x -> yn y = length x -> size (ysh y) <> 0%nat ->
  (forall p, spline inv sb s x y n (BcTuple []) (BcTuple []) true ExNone = Ok p ->
    exists cols, per_result n x (ysh y) cols p /\
      forall comp, inb comp (ysh y) -> pieces n x true (y_per x (yval y comp)) (cols comp)) /\
  (banded_complete sb -> dense_complete s ->
   (forall v, band_hom n x v -> forall i, (i < (length x - 1) * n)%nat -> v i = 0) ->
   (forall v, spl_hom n x true [] [] v -> forall i, (i < (length x - 1) * n)%nat -> v i = 0) ->
   exists p, spline inv sb s x y n (BcTuple []) (BcTuple []) true ExNone = Ok p).
Proof.
  intros Hsb Hs Hn Hx Hi Hyn Hsz. pose proof (nun_ge n x Hn Hx) as HN.
  set (yf := fun t j => yval y (unravel (ysh y) t) (if (j =? length x - 1)%nat then 0%nat else j)).
  set (ab := spl_ab n x). set (b := spl_b n (length x) (size (ysh y)) yf).
  set (carrB := fun B => CArr (n + 1) (ysh y) (length x + 1) (fun comp i =>
              if (i =? 0)%nat then spl_col n x yf B (ravel (ysh y) comp) 0
              else if (i =? length x)%nat then pshift (spl_col n x yf B (ravel (ysh y) comp) (length x - 2)) (dxs x (length x - 2))
              else spl_col n x yf B (ravel (ysh y) comp) (i - 1))).
  assert (Cw : forall B, carr_wf (carrB B)).
  { intros B. split; [cbn; lia|]. cbn [cn csh ck ccol carrB]. intros comp i Hb Hlt.
    destruct (i =? 0)%nat, (i =? length x)%nat; rewrite ?pshift_length by discriminate; rewrite ?spl_col_len; reflexivity. }
  assert (EQ : spline inv sb s x y n (BcTuple []) (BcTuple []) true ExNone =
     (let! B := solve_periodic sb s 1 (n - 1) ab b in new Per x (carrB B))%res).
  { unfold spline. rewrite Hyn, size_snoc_pos by (auto; lia). rewrite Nat.eqb_refl, incr_ends by auto.
    destruct (Nat.eqb_spec (length x) 0); [lia|]. destruct (Nat.ltb_spec (length x) 2); [lia|].
    cbn [orb negb andb bc_tuple length ex_pair].
    destruct (Nat.leb_spec n 0); [exfalso; lia|]. cbn [orb].
    destruct (Nat.ltb_spec n 2); [exfalso; lia|]. unfold spl_bcs. rewrite andb_false_r. cbn [bind ysh yval]. reflexivity. }
  destruct (C24_solve_periodic sb s 1 (n - 1) ab b Hsb Hs) as [S1 S2]; try (cbn [nc nr ab b spl_ab spl_b]; lia).
  assert (NC : nc ab = ((length x - 1) * n)%nat) by reflexivity. rewrite NC in S1, S2.
  rewrite EQ. split.
  - intros p E. destruct (solve_periodic _ _ _ _ _ _) as [B|] eqn:EB; [|discriminate]. cbn [bind] in E.
    destruct (S1 B eq_refl) as (B1 & B2 & B3). cbn [nc b spl_b] in B2, B3.
    destruct (rawinit_short Per x _ (Cw B)) as (r & Er & W & P1 & P2 & P3 & P4 & P5 & P6 & _); auto; try (cbn; lia).
    assert (E' : Ok r = Ok p) by (rewrite <- Er; exact E). injection E' as ->.
    exists (fun comp q => vcol n (dxs x q) (y_per x (yval y comp) q) (fun t => at2 B (q * n + t)%nat (ravel (ysh y) comp))).
    split.
    + split; [exact W|]. split; [exact P1|]. split; [exact P2|]. split; [exact P3|]. split; [exact P5|]. split; [rewrite P4; cbn; lia|].
      intros comp Hb q Hq. rewrite P6 by (cbn; auto; lia). cbn [ccol carrB].
      destruct (Nat.eqb_spec (S q) 0); [lia|]. destruct (Nat.eqb_spec (S q) (length x)); [lia|].
      replace (S q - 1)%nat with q by lia. rewrite spl_col_vcol. unfold yf, y_per. rewrite unravel_ravel by auto. reflexivity.
    + intros comp Hb. pose proof (ravel_lt _ _ Hb) as RB.
      assert (SE : spl_eqs n x true [] [] (y_per x (yval y comp)) (ravel (ysh y) comp) (fun j => at2 B j (ravel (ysh y) comp))).
      { split; [|discriminate]. intros q m Hm Hq _. rewrite <- (eq_per n x Hn Hx) by auto.
        unfold y_per. pose proof (B3 (q * n + m)%nat _ ltac:(nia) RB) as B4. unfold b in B4. rewrite at_spl_b in B4 by auto.
        unfold yf in B4. rewrite unravel_ravel in B4 by auto. exact B4. }
      destruct (eqs_pieces n x true [] [] _ _ _ Hn Hx Hi SE) as [Q1 _]. exact Q1.
  - intros Hbc Hdc Hb1 Hb2. destruct S2 as [B EB]; auto.
    + intros v Hv. apply Hb1. apply per_band_hom; auto.
    + intros v Hv. apply Hb2. split; [|discriminate]. intros q m Hm Hq _. rewrite <- (eq_per n x Hn Hx) by auto. apply Hv. nia.
    + rewrite EB. cbn [bind]. destruct (rawinit_short Per x _ (Cw B)) as (r & Er & _); auto; try (cbn; lia). exists r. exact Er.
Qed.
