(* Lemmas about strided writes and _diag_to_norm. *)
From Coq Require Import List Arith ZArith Lia Bool Reals Lra FinFun.
From Verif Require Import Num PyBase PwPoly RSum SolvePer.
Import ListNotations.

Lemma ksum_rsum n (f : nat -> R) : ksum n f = rsum n f.
Proof. induction n; cbn; [reflexivity|]. rewrite IHn. reflexivity. Qed.

Section Wr.
  Context {K : Type}.
  Lemma wr_miss (f : nat -> K) idx vals p : ~ In p idx -> wr f idx vals p = f p.
  Proof.
    revert vals; induction idx as [|i idx IH]; intros [|v vals] H; cbn; auto.
    destruct (Nat.eqb_spec p i) as [->|]; [destruct H; left; auto|]. apply IH. intros ?; apply H; right; auto.
  Qed.
  Lemma wr_hit (f : nat -> K) idx vals t d : NoDup idx -> t < length idx -> length vals = length idx ->
    wr f idx vals (nth t idx 0) = nth t vals d.
  Proof.
    revert vals t; induction idx as [|i idx IH]; intros [|v vals] t ND Ht HL; cbn in *; try lia.
    inversion ND; subst. destruct t as [|t].
    - rewrite Nat.eqb_refl. reflexivity.
    - destruct (Nat.eqb_spec (nth t idx 0) i) as [E|].
      + exfalso. apply H1. rewrite <- E. apply nth_In. lia.
      + apply IH; auto; lia.
  Qed.
End Wr.

(* indices a, a+step, ... with the given count *)
Lemma slice_up len (a : nat) (b : option Z) (step cnt stop : nat) :
  (0 < step)%nat ->
  slice_adjust (Z.of_nat len) (Z.of_nat step) b false = Z.of_nat stop ->
  (cnt = 0 -> stop <= a)%nat -> (0 < cnt -> a + (cnt - 1) * step < stop /\ stop <= a + cnt * step)%nat -> (stop <= len)%nat ->
  slice_indices len (Some (Z.of_nat a)) b (Z.of_nat step) = map (fun t => a + t * step)%nat (seq 0 cnt).
Proof.
  intros Hs Hb H0 H1 Hl. unfold slice_indices. rewrite Hb.
  set (a' := slice_adjust (Z.of_nat len) (Z.of_nat step) (Some (Z.of_nat a)) true).
  assert (Ha : a' = Z.of_nat (Nat.min a len)).
  { unfold a', slice_adjust. destruct (Z.ltb_spec (Z.of_nat step) 0); [lia|].
    destruct (Z.ltb_spec (Z.of_nat a) 0); [lia|]. destruct (Z.ltb_spec (Z.of_nat len) (Z.of_nat a)); lia. }
  rewrite Ha. unfold slice_len. destruct (Z.ltb_spec (Z.of_nat step) 0); [lia|].
  destruct (Z.ltb_spec (Z.of_nat (Nat.min a len)) (Z.of_nat stop)) as [Hlt|Hge].
  - destruct (Nat.eq_dec cnt 0) as [->|Hc]; [specialize (H0 eq_refl); lia|].
    destruct H1 as [H1 H2]; [lia|]. assert (Hal : (Nat.min a len = a)%nat) by lia. rewrite Hal.
    replace (Z.to_nat _) with cnt.
    + apply map_ext. intros t. lia.
    + assert (E : ((Z.of_nat stop - Z.of_nat a - 1) / Z.of_nat step = Z.of_nat cnt - 1)%Z).
      { symmetry. apply (Z.div_unique _ _ _ (Z.of_nat stop - Z.of_nat a - 1 - (Z.of_nat cnt - 1) * Z.of_nat step)%Z); nia. }
      rewrite E. lia.
  - destruct (Nat.eq_dec cnt 0) as [->|Hc]; [reflexivity|].
    destruct H1 as [H1 H2]; [lia|]. nia.
Qed.
Lemma strided_nodup a step cnt : 0 < step -> NoDup (map (fun t => a + t * step) (seq 0 cnt)).
Proof.
  intros H. apply FinFun.Injective_map_NoDup; [|apply seq_NoDup]. intros x y E. nia.
Qed.
Lemma nth_strided a step cnt t : t < cnt -> nth t (map (fun t => a + t * step) (seq 0 cnt)) 0 = a + t * step.
Proof.
  intros H. rewrite (nth_indep _ 0 ((fun t => a + t * step) 0)) by (rewrite map_length, seq_length; auto).
  rewrite (map_nth (fun t => a + t * step)). rewrite seq_nth by auto. reflexivity.
Qed.
Lemma in_strided a step cnt p : In p (map (fun t => a + t * step) (seq 0 cnt)) <-> exists t, t < cnt /\ p = a + t * step.
Proof.
  rewrite in_map_iff. split.
  - intros (t & E & Ht). apply in_seq in Ht. exists t. split; [lia|auto].
  - intros (t & Ht & E). exists t. split; [auto|]. apply in_seq. lia.
Qed.
Lemma fset_strided {K} {NK : Num K} len (f : nat -> K) sa sb step vals a st cnt :
  slice_indices len sa sb step = map (fun t => a + t * st) (seq 0 cnt) -> length vals = cnt ->
  fset len f sa sb step vals = Ok (wr f (map (fun t => a + t * st) (seq 0 cnt)) vals).
Proof.
  intros E L. unfold fset. rewrite E, map_length, seq_length, L, Nat.eqb_refl. reflexivity.
Qed.
Lemma flat_ij n i j i' j' : j < n -> j' < n -> (i * n + j = i' * n + j' <-> i = i' /\ j = j').
Proof. intros. split; [intros E|intros [-> ->]; auto]. assert (i = i') by nia. nia. Qed.

Section Diag.
  Context {K : Type} {NK : Num K}.
  Lemma row2_length (a : arr2 K) i : length (row2 a i) = nc a.
  Proof. unfold row2. rewrite map_length, seq_length. reflexivity. Qed.
  Lemma nth_row2 (a : arr2 K) i j d : j < nc a -> nth j (row2 a i) d = at2 a i j.
  Proof.
    intros H. unfold row2. rewrite (nth_indep _ d (at2 a i 0)) by (rewrite map_length, seq_length; auto).
    rewrite map_nth, seq_nth by auto. reflexivity.
  Qed.
  Lemma nth_skipn' {A} k (l : list A) i d : nth i (skipn k l) d = nth (k + i) l d.
  Proof. revert l; induction k; intros [|a l]; cbn; auto. destruct i; reflexivity. Qed.
  Lemma nth_firstn' {A} k (l : list A) i d : i < k -> nth i (firstn k l) d = nth i l d.
  Proof. revert l i; induction k; intros [|a l] [|i] H; cbn; auto; try lia. apply IHk. lia. Qed.

  (* upper diagonals *)
  Lemma dn_upper_ok n : forall ds i (f : nat -> K),
    i + length ds <= n -> (forall d, In d ds -> length d = n) ->
    exists f', dn_upper n i ds f = Ok f' /\
    forall r c, r < n -> c < n ->
      f' (r * n + c) = if (r + i + 1 <=? c) && (c <? r + i + 1 + length ds)
                       then nth c (nth (c - r - i - 1) ds []) n0 else f (r * n + c).
  Proof.
    induction ds as [|d ds IH]; intros i f Hi Hd; cbn [dn_upper].
    - exists f. split; [reflexivity|]. intros r c Hr Hc. cbn [length].
      destruct (Nat.leb_spec (r + i + 1) c); destruct (Nat.ltb_spec c (r + i + 1 + 0)); cbn; auto; lia.
    - cbn [length] in Hi.
      set (cnt := n - (i + 1)).
      assert (E : slice_indices (n * n) (Some (Z.of_nat (i + 1)))
                 (Some (Z.of_nat n + Z.of_nat n * (Z.of_nat n - Z.of_nat i - 1))%Z) (Z.of_nat (n + 1))
               = map (fun t => (i + 1) + t * (n + 1)) (seq 0 cnt)).
      { apply (slice_up _ _ _ _ _ (n * (n - i))); [lia| | | |nia].
        - unfold slice_adjust. destruct (Z.ltb_spec (Z.of_nat (n + 1)) 0); [lia|].
          replace (Z.of_nat n + Z.of_nat n * (Z.of_nat n - Z.of_nat i - 1))%Z with (Z.of_nat (n * (n - i))) by nia.
          destruct (Z.ltb_spec (Z.of_nat (n * (n - i))) 0); [lia|].
          destruct (Z.ltb_spec (Z.of_nat (n * n)) (Z.of_nat (n * (n - i)))); [nia|reflexivity].
        - intros H0. unfold cnt in H0. assert (n - i = 1) by lia. nia.
        - intros H0. unfold cnt in *. remember (n - (i + 1)) as m. assert (n = m + i + 1) by lia. subst n. split; nia. }
      rewrite (fset_strided _ _ _ _ _ _ _ _ _ E).
      2:{ rewrite skipn_length, Hd by (left; auto). reflexivity. }
      cbn [bind].
      set (f1 := wr f _ _).
      destruct (IH (S i) f1) as (f' & E' & G); [lia|intros; apply Hd; right; auto|].
      exists f'. split; [exact E'|]. intros r c Hr Hc. rewrite G by auto. cbn [length].
      destruct (Nat.leb_spec (r + S i + 1) c) as [H1|H1].
      + destruct (Nat.ltb_spec c (r + S i + 1 + length ds)) as [H2|H2];
        destruct (Nat.leb_spec (r + i + 1) c) as [H3|H3]; try lia;
        destruct (Nat.ltb_spec c (r + i + 1 + S (length ds))) as [H4|H4]; try lia; cbn [andb].
        * replace (c - r - i - 1) with (S (c - r - S i - 1)) by lia. reflexivity.
        * unfold f1. apply wr_miss. rewrite in_strided. intros (t & Ht & Et). unfold cnt in Ht.
          replace (i + 1 + t * (n + 1)) with (t * n + (i + 1 + t)) in Et by lia.
          apply flat_ij in Et; lia.
      + cbn [andb]. destruct (Nat.eq_dec (r + i + 1) c) as [Hc'|Hc'].
        * destruct (Nat.leb_spec (r + i + 1) c); [|lia]. destruct (Nat.ltb_spec c (r + i + 1 + S (length ds))); [|lia].
          cbn [andb]. replace (c - r - i - 1) with 0 by lia. cbn [nth].
          unfold f1. replace (r * n + c) with (nth r (map (fun t => i + 1 + t * (n + 1)) (seq 0 cnt)) 0).
          2:{ rewrite nth_strided by (unfold cnt; lia). nia. }
          rewrite (wr_hit _ _ _ _ n0).
          -- rewrite nth_skipn'. f_equal. lia.
          -- apply strided_nodup. lia.
          -- rewrite map_length, seq_length. unfold cnt. lia.
          -- rewrite skipn_length, Hd by (left; auto). rewrite map_length, seq_length. reflexivity.
        * destruct (Nat.leb_spec (r + i + 1) c); [lia|]. cbn [andb].
          unfold f1. apply wr_miss. rewrite in_strided. intros (t & Ht & Et). unfold cnt in Ht.
          replace (i + 1 + t * (n + 1)) with (t * n + (i + 1 + t)) in Et by lia.
          apply flat_ij in Et; lia.
  Qed.
  (* lower diagonals *)
  Lemma dn_lower_ok n : forall ds i (f : nat -> K),
    (forall d, In d ds -> length d = n) ->
    exists f', dn_lower n i ds f = Ok f' /\
    forall r c, r < n -> c < n ->
      f' (r * n + c) = if (c + i + 1 <=? r) && (r <? c + i + 1 + length ds)
                       then nth c (nth (r - c - i - 1) ds []) n0 else f (r * n + c).
  Proof.
    induction ds as [|d ds IH]; intros i f Hd; cbn [dn_lower].
    - exists f. split; [reflexivity|]. intros r c Hr Hc. cbn [length].
      destruct (Nat.leb_spec (c + i + 1) r); destruct (Nat.ltb_spec r (c + i + 1 + 0)); cbn; auto; lia.
    - set (cnt := n - (i + 1)).
      assert (E : slice_indices (n * n) (Some (Z.of_nat ((i + 1) * n))) None (Z.of_nat (n + 1))
               = map (fun t => ((i + 1) * n) + t * (n + 1)) (seq 0 cnt)).
      { apply (slice_up _ _ _ _ _ (n * n)); [lia| | | |lia].
        - unfold slice_adjust. destruct (Z.ltb_spec (Z.of_nat (n + 1)) 0); [lia|reflexivity].
        - intros H0. unfold cnt in H0. nia.
        - intros H0. unfold cnt in *. remember (n - (i + 1)) as m. assert (n = m + i + 1) by lia. subst n. split; nia. }
      rewrite (fset_strided _ _ _ _ _ _ _ _ _ E).
      2:{ rewrite firstn_length, Hd by (left; auto). unfold cnt. lia. }
      cbn [bind]. set (f1 := wr f _ _).
      destruct (IH (S i) f1) as (f' & E' & G); [intros; apply Hd; right; auto|].
      exists f'. split; [exact E'|]. intros r c Hr Hc. rewrite G by auto. cbn [length].
      assert (Miss : r <> c + i + 1 -> f1 (r * n + c) = f (r * n + c)).
      { intros Hne. unfold f1. apply wr_miss. rewrite in_strided. intros (t & Ht & Et). unfold cnt in Ht.
        replace ((i + 1) * n + t * (n + 1)) with ((i + 1 + t) * n + t) in Et by lia.
        apply flat_ij in Et; lia. }
      destruct (Nat.eq_dec r (c + i + 1)) as [Hc'|Hc'].
      + destruct (Nat.leb_spec (c + S i + 1) r); [lia|]. destruct (Nat.leb_spec (c + i + 1) r); [|lia].
        destruct (Nat.ltb_spec r (c + i + 1 + S (length ds))); [|lia]. cbn [andb].
        replace (r - c - i - 1) with 0 by lia. cbn [nth].
        unfold f1. replace (r * n + c) with (nth c (map (fun t => (i + 1) * n + t * (n + 1)) (seq 0 cnt)) 0).
        2:{ rewrite nth_strided by (unfold cnt; lia). nia. }
        rewrite (wr_hit _ _ _ _ n0).
        * rewrite Hd by (left; auto). rewrite nth_firstn' by lia. reflexivity.
        * apply strided_nodup. lia.
        * rewrite map_length, seq_length. unfold cnt. lia.
        * rewrite firstn_length, Hd by (left; auto). rewrite map_length, seq_length. unfold cnt. lia.
      + rewrite Miss by auto.
        destruct (Nat.leb_spec (c + S i + 1) r) as [H1|H1]; destruct (Nat.ltb_spec r (c + S i + 1 + length ds)) as [H2|H2];
        destruct (Nat.leb_spec (c + i + 1) r) as [H3|H3]; try lia;
        destruct (Nat.ltb_spec r (c + i + 1 + S (length ds))) as [H4|H4]; try lia; cbn [andb]; auto.
        replace (r - c - i - 1) with (S (r - c - S i - 1)) by lia. reflexivity.
  Qed.
  Lemma diag_to_norm_ok l u (ab : arr2 K) : nr ab = u + 1 + l -> u <= nc ab ->
    exists a, diag_to_norm l u ab = Ok a /\ nr a = nc ab /\ nc a = nc ab /\
    forall i j, i < nc ab -> j < nc ab ->
      at2 a i j = if (i <=? j + l) && (j <=? i + u) then at2 ab (u + i - j) j else n0.
  Proof.
    intros Hn Hu. unfold diag_to_norm. rewrite Hn, Nat.eqb_refl. cbn [negb].
    set (n := nc ab) in *.
    set (U := rev (map (row2 ab) (seq 0 u))). set (L := map (row2 ab) (seq (u + 1) l)).
    assert (LU : length U = u) by (unfold U; rewrite rev_length, map_length, seq_length; auto).
    assert (LL : length L = l) by (unfold L; rewrite map_length, seq_length; auto).
    match goal with |- context [dn_upper n 0 U ?F] => destruct (dn_upper_ok n U 0 F) as (f1 & E1 & G1) end.
    { lia. }
    { intros d Hd. unfold U in Hd. apply in_rev, in_map_iff in Hd as (k & <- & _). apply row2_length. }
    rewrite E1. cbn [bind].
    destruct (dn_lower_ok n L 0 f1) as (f2 & E2 & G2).
    { intros d Hd. apply in_map_iff in Hd as (k & <- & _). apply row2_length. }
    rewrite E2. cbn [bind]. eexists. split; [reflexivity|]. split; [reflexivity|]. split; [reflexivity|].
    intros i j Hi Hj. cbn [at2 unflat2]. rewrite G2, G1 by auto. rewrite LU, LL.
    destruct (Nat.leb_spec (j + 0 + 1) i) as [H1|H1]; cbn [andb].
    - destruct (Nat.ltb_spec i (j + 0 + 1 + l)) as [H2|H2].
      + destruct (Nat.leb_spec i (j + l)); [|lia]. destruct (Nat.leb_spec j (i + u)); [|lia]. cbn [andb].
        unfold L. rewrite (nth_indep _ [] (row2 ab 0)) by (rewrite map_length, seq_length; lia).
        rewrite map_nth, seq_nth by lia. rewrite nth_row2 by auto. f_equal. lia.
      + destruct (Nat.leb_spec i (j + l)); [lia|]. cbn [andb].
        destruct (Nat.leb_spec (i + 0 + 1) j); [lia|]. cbn [andb]. unfold flat2. cbn [at2 nc].
        rewrite Nat.div_add_l, Nat.div_small, Nat.add_0_r by lia.
        rewrite Nat.add_comm, Nat.mod_add, Nat.mod_small by lia. destruct (Nat.eqb_spec i j); [lia|reflexivity].
    - destruct (Nat.leb_spec i (j + l)); [|lia]. cbn [andb].
      destruct (Nat.leb_spec (i + 0 + 1) j) as [H2|H2]; cbn [andb].
      + destruct (Nat.ltb_spec j (i + 0 + 1 + u)) as [H3|H3].
        * destruct (Nat.leb_spec j (i + u)); [|lia].
          unfold U. rewrite rev_nth by (rewrite map_length, seq_length; lia). rewrite map_length, seq_length.
          rewrite (nth_indep _ [] (row2 ab 0)) by (rewrite map_length, seq_length; lia).
          rewrite map_nth, seq_nth by lia. rewrite nth_row2 by auto. f_equal. lia.
        * destruct (Nat.leb_spec j (i + u)); [lia|]. unfold flat2. cbn [at2 nc].
          rewrite Nat.div_add_l, Nat.div_small, Nat.add_0_r by lia.
          rewrite Nat.add_comm, Nat.mod_add, Nat.mod_small by lia. destruct (Nat.eqb_spec i j); [lia|reflexivity].
      + assert (i = j) by lia. subst j. destruct (Nat.leb_spec i (i + u)); [|lia]. unfold flat2. cbn [at2 nc].
        rewrite Nat.div_add_l, Nat.div_small, Nat.add_0_r by lia.
        rewrite Nat.add_comm, Nat.mod_add, Nat.mod_small by lia. rewrite Nat.eqb_refl. f_equal. lia.
  Qed.
End Diag.
