(* The banded system of splfit: entries, and the system as a bilinear form. *)
From Coq Require Import List Arith ZArith Lia Bool Reals Lra.
From Verif Require Import Num PyBase NdArray NdLemmas Poly SpecPoly PolyProofs PwPoly PwBase RSum SolvePer SolveProofs Gauss PropsSolve PwCtor Spline SplineProofs SplineCore SplineSolve SplineFacts Fit FitProofs.
Import ListNotations.
Local Open Scope R_scope.

(* --- sums ------------------------------------------------------------------------------------------ *)
Lemma rsum_blocks b m f : rsum (m * b) f = rsum m (fun k => rsum b (fun c => f (k * b + c)%nat)).
Proof. induction m as [|m IH]; [reflexivity|]. cbn [rsum Nat.mul]. rewrite <- IH, Nat.add_comm, rsum_split. reflexivity. Qed.
Lemma rsum_pad n m f : (forall i, (Nat.min n m <= i < Nat.max n m)%nat -> f i = 0) -> rsum n f = rsum m f.
Proof.
  intros H. destruct (Nat.le_ge_cases n m) as [L|L].
  - symmetry. apply rsum_cut; auto. intros i Hi. apply H. lia.
  - apply rsum_cut; auto. intros i Hi. apply H. lia.
Qed.
Lemma rsum_delta' n k (f : nat -> R) : rsum n (fun i => if (k =? i)%nat then f i else 0) = if (k <? n)%nat then f k else 0.
Proof. rewrite <- rsum_delta. apply rsum_ext. intros i _. rewrite Nat.eqb_sym. reflexivity. Qed.
(* a symmetric double sum by diagonals *)
Lemma rsum_diag n (f d x : nat -> R) :
  rsum n (fun c => f (2 * c)%nat * (d c * x c) + rsum (n - 1 - c) (fun s => f (S s + 2 * c)%nat * (d (c + S s)%nat * x c + d c * x (c + S s)%nat))) =
  rsum n (fun p => rsum n (fun q => f (p + q)%nat * (d p * x q))).
Proof.
  induction n as [|n IH]; [reflexivity|]. cbn [rsum].
  rewrite (rsum_plus n (fun p => rsum n (fun q => f (p + q)%nat * (d p * x q))) (fun p => f (p + n)%nat * (d p * x n))), <- IH.
  replace (S n - 1 - n)%nat with 0%nat by lia. cbn [rsum].
  rewrite (rsum_ext n (fun c => f (2 * c)%nat * (d c * x c) + rsum (S n - 1 - c) (fun s => f (S s + 2 * c)%nat * (d (c + S s)%nat * x c + d c * x (c + S s)%nat)))
    (fun c => (f (2 * c)%nat * (d c * x c) + rsum (n - 1 - c) (fun s => f (S s + 2 * c)%nat * (d (c + S s)%nat * x c + d c * x (c + S s)%nat))) +
              (f (n + c)%nat * (d n * x c) + f (c + n)%nat * (d c * x n)))).
  - rewrite rsum_plus, rsum_plus with (f := fun c => f (n + c)%nat * (d n * x c)). replace (2 * n)%nat with (n + n)%nat by lia. ring.
  - intros c Hc. replace (S n - 1 - c)%nat with (S (n - 1 - c)) by lia. cbn [rsum].
    replace (c + S (n - 1 - c))%nat with n by lia. replace (S (n - 1 - c) + 2 * c)%nat with (n + c)%nat by lia.
    replace (c + n)%nat with (n + c)%nat by lia. ring.
Qed.

(* --- a symmetric band matrix as a bilinear form ------------------------------------------------------ *)
Definition ext (N : nat) (D : nat -> R) (j : nat) : R := if (j <? N)%nat then D j else 0.
Lemma band_quad N u (ab M : nat -> nat -> R) (sg : nat -> nat -> nat) (D X : nat -> R) :
  (forall i j, (i < N)%nat -> (j < N)%nat -> M i j = (if (i =? j)%nat then ab 0%nat j else 0) +
     rsum u (fun s => (if (sg (S s) j =? i)%nat then ab (S s) j else 0) + (if (sg (S s) i =? j)%nat then ab (S s) i else 0))) ->
  rsum N (fun i => D i * rsum N (fun j => M i j * X j)) =
  rsum N (fun j => ab 0%nat j * (D j * X j) + rsum u (fun s => ab (S s) j * (ext N D (sg (S s) j) * X j + D j * ext N X (sg (S s) j)))).
Proof.
  intros HM.
  rewrite (rsum_ext N _ (fun i => rsum N (fun j => (if (i =? j)%nat then ab 0%nat j * (D i * X j) else 0) +
     rsum u (fun s => (if (sg (S s) j =? i)%nat then ab (S s) j * D i * X j else 0) + (if (sg (S s) i =? j)%nat then ab (S s) i * D i * X j else 0))))).
  2:{ intros i Hi. rewrite <- rsum_scal. apply rsum_ext. intros j Hj. rewrite HM by auto.
      rewrite Rmult_plus_distr_r, Rmult_plus_distr_l. f_equal; [destruct (_ =? _)%nat; ring|].
      rewrite <- rsum_scal_r, <- rsum_scal. apply rsum_ext. intros s Hs. destruct (_ =? _)%nat, (_ =? _)%nat; ring. }
  rewrite (rsum_ext N _ (fun i => ab 0%nat i * (D i * X i) + rsum N (fun j => rsum u (fun s =>
     (if (sg (S s) j =? i)%nat then ab (S s) j * D i * X j else 0) + (if (sg (S s) i =? j)%nat then ab (S s) i * D i * X j else 0))))).
  2:{ intros i Hi. rewrite rsum_plus. f_equal. rewrite (rsum_delta' N i (fun j => ab 0%nat j * (D i * X j))).
      destruct (Nat.ltb_spec i N); [reflexivity|lia]. }
  rewrite !rsum_plus. f_equal.
  rewrite (rsum_ext N _ (fun i => rsum u (fun s => rsum N (fun j =>
     (if (sg (S s) j =? i)%nat then ab (S s) j * D i * X j else 0) + (if (sg (S s) i =? j)%nat then ab (S s) i * D i * X j else 0)))))
    by (intros i _; apply rsum_swap).
  rewrite rsum_swap. rewrite (rsum_swap N u). apply rsum_ext. intros s Hs.
  rewrite (rsum_ext N _ (fun i => rsum N (fun j => if (sg (S s) j =? i)%nat then ab (S s) j * D i * X j else 0) + ab (S s) i * D i * ext N X (sg (S s) i))).
  2:{ intros i Hi. rewrite rsum_plus. f_equal. rewrite (rsum_delta' N (sg (S s) i) (fun j => ab (S s) i * D i * X j)). unfold ext.
      destruct (_ <? _)%nat; ring. }
  rewrite rsum_plus, rsum_swap.
  rewrite (rsum_ext N (fun j => rsum N _) (fun j => ab (S s) j * ext N D (sg (S s) j) * X j)).
  2:{ intros j Hj. rewrite (rsum_delta' N (sg (S s) j) (fun i => ab (S s) j * D i * X j)). unfold ext. destruct (_ <? _)%nat; ring. }
  rewrite <- rsum_plus. apply rsum_ext. intros j Hj. ring.
Qed.
Lemma hlow_sum u (ab : arr2 R) i j : hlow u ab i j = (if (i =? j)%nat then at2 ab 0 j else 0) +
  rsum u (fun s => (if (j + S s =? i)%nat then at2 ab (S s) j else 0) + (if (i + S s =? j)%nat then at2 ab (S s) i else 0)).
Proof.
  unfold hlow. destruct (Nat.lt_trichotomy i j) as [H|[H|H]].
  - rewrite Nat.max_r, Nat.min_l by lia. destruct (Nat.eqb_spec i j); [lia|].
    rewrite (rsum_ext u _ (fun s => if (s =? j - i - 1)%nat then at2 ab (S s) i else 0)).
    + rewrite rsum_delta. destruct (Nat.leb_spec (j - i) u), (Nat.ltb_spec (j - i - 1) u); try lia; try lra.
      replace (S (j - i - 1)) with (j - i)%nat by lia. lra.
    + intros s _. destruct (Nat.eqb_spec (j + S s) i), (Nat.eqb_spec (i + S s) j), (Nat.eqb_spec s (j - i - 1)); try lia; lra.
  - subst j. rewrite Nat.max_id, Nat.min_id, Nat.sub_diag, Nat.eqb_refl. rewrite rsum_zero; [cbn; lra|].
    intros s _. destruct (Nat.eqb_spec (i + S s) i); [lia|]. lra.
  - rewrite Nat.max_l, Nat.min_r by lia. destruct (Nat.eqb_spec i j); [lia|].
    rewrite (rsum_ext u _ (fun s => if (s =? i - j - 1)%nat then at2 ab (S s) j else 0)).
    + rewrite rsum_delta. destruct (Nat.leb_spec (i - j) u), (Nat.ltb_spec (i - j - 1) u); try lia; try lra.
      replace (S (i - j - 1)) with (i - j)%nat by lia. lra.
    + intros s _. destruct (Nat.eqb_spec (i + S s) j), (Nat.eqb_spec (j + S s) i), (Nat.eqb_spec s (i - j - 1)); try lia; lra.
Qed.
(* the equations hold exactly when they do against every test vector *)
Lemma solves_form N (M : nat -> nat -> R) (X b : nat -> R) :
  (forall i, (i < N)%nat -> rsum N (fun j => M i j * X j) = b i) ->
  forall D, rsum N (fun i => D i * rsum N (fun j => M i j * X j)) = rsum N (fun i => D i * b i).
Proof. intros H D. apply rsum_ext. intros i Hi. rewrite H by auto. reflexivity. Qed.

(* --- the entries of the array a ---------------------------------------------------------------------- *)
Lemma nth_concat_const (l : list (list R)) w i j : (forall r, In r l -> length r = w) -> (i < length l)%nat -> (j < w)%nat ->
  nth (i * w + j) (concat l) 0 = nth j (nth i l []) 0.
Proof.
  revert i; induction l as [|r l IH]; intros i H Hi Hj; cbn in Hi; [lia|]. cbn [concat].
  assert (L : length r = w) by (apply H; left; reflexivity). destruct i as [|i].
  - cbn [Nat.mul Nat.add nth]. apply app_nth1. lia.
  - rewrite app_nth2 by (cbn; lia). cbn [nth]. rewrite <- IH; [f_equal; cbn; lia|intros; apply H; right; auto|lia|auto].
Qed.
Lemma concat_const_len (l : list (list R)) w : (forall r, In r l -> length r = w) -> length (concat l) = (length l * w)%nat.
Proof. induction l as [|r l IH]; intros H; [reflexivity|]. cbn. rewrite app_length, IH, (H r) by (intros; apply H; cbn; auto) || (left; auto). reflexivity. Qed.
Lemma bico_In n nc r : In r (@bico R _ n nc) -> length r = (n + 1)%nat.
Proof.
  intros H. apply In_nth with (d := []) in H as (i & Hi & <-). rewrite bico_len in Hi. rewrite nth_bico by lia. apply binrow_len.
Qed.
Definition sfa_spec (n nc : nat) (xp rat : nat -> nat -> R) (r k c : nat) : R :=
  if (c <? n + 1)%nat then
    if (c + r <? n + 1)%nat then xp k (r + 2 * c)%nat
    else if (c + r - (n + 1) <? nc + 1)%nat then INR (binom c (c + r - (n + 1))) else 0
  else if (r =? nc + 1)%nat then - rat k (c - (n + 1))%nat else 0.
Lemma sf_a_spec n nc (xp rat : nat -> nat -> R) r k c : (nc < n)%nat -> (r <= n + 1)%nat -> (c < n + 2 + nc)%nat ->
  sf_a n nc xp rat r k c = sfa_spec n nc xp rat r k c.
Proof.
  intros Hnc Hr Hc. unfold sf_a, sfa_spec. numR.
  destruct (Nat.ltb_spec c (n + 1)) as [H1|H1].
  - replace ((r =? nc + 1)%nat && (n + 1 <=? c)%nat) with false by (symmetry; apply andb_false_iff; right; apply Nat.leb_gt; lia).
    destruct (Nat.eqb_spec r (n + 1)) as [E|E].
    + destruct (Nat.ltb_spec (c + r) (n + 1)); [lia|]. replace (c + r - (n + 1))%nat with c by lia.
      destruct (c <? nc + 1)%nat; [rewrite binom_diag; reflexivity|reflexivity].
    + destruct (Nat.ltb_spec c (n + 1 - r)) as [H2|H2].
      * destruct (Nat.ltb_spec (c + r) (n + 1)); [|lia].
        assert (ES : slice_indices (n + 1 + n) (Some (Z.of_nat r)) (Some (Z.of_nat (n + 1 + n - r))) 2 = map (fun t => r + t * 2)%nat (seq 0 (n + 1 - r))).
        { change 2%Z with (Z.of_nat 2). apply (slice_up _ _ _ _ _ (n + 1 + n - r)); try lia. unfold slice_adjust.
          destruct (Z.ltb_spec (Z.of_nat (n + 1 + n - r)) 0); [lia|]. destruct (Z.ltb_spec (Z.of_nat 2) 0); [lia|].
          destruct (Z.ltb_spec (Z.of_nat (n + 1 + n)) (Z.of_nat (n + 1 + n - r))); lia. }
        rewrite ES, map_map, (map_seq_nth (fun t => xp k (r + t * 2)%nat)) by lia. f_equal. lia.
      * destruct (Nat.ltb_spec (c + r) (n + 1)); [lia|]. set (m := (c + r - (n + 1))%nat).
        destruct (Nat.eqb_spec r 0) as [E0|E0]; [lia|].
        set (cco := concat (@bico R _ n nc)).
        assert (LC : length cco = ((nc + 1) * (n + 1))%nat).
        { unfold cco. rewrite (concat_const_len _ (n + 1)) by (intros r' H'; eapply bico_In; eauto). rewrite bico_len. f_equal. lia. }
        assert (ES : slice_indices (length cco) (Some (Z.of_nat (n + 1 - r))) (Some (Z.of_nat ((n + 1) * r))) (Z.of_nat (n + 2)) =
                     map (fun t => (n + 1 - r) + t * (n + 2))%nat (seq 0 (Nat.min r (nc + 1)))).
        { apply (slice_up _ _ _ _ _ (Nat.min ((n + 1) * r) (length cco))); try lia.
          - unfold slice_adjust. destruct (Z.ltb_spec (Z.of_nat ((n + 1) * r)) 0); [lia|]. destruct (Z.ltb_spec (Z.of_nat (n + 2)) 0); [lia|].
            destruct (Z.ltb_spec (Z.of_nat (length cco)) (Z.of_nat ((n + 1) * r))); lia.
          - intros _. rewrite LC. destruct (Nat.le_gt_cases r (nc + 1)).
            + rewrite (Nat.min_l r), (Nat.min_l ((n + 1) * r)) by nia. split; nia.
            + rewrite (Nat.min_r r), (Nat.min_r ((n + 1) * r)) by nia. split; nia. }
        rewrite ES, !map_map, map_length, seq_length. destruct (Nat.leb_spec 1 r); [|lia]. cbn [andb].
        destruct (Nat.ltb_spec c (n + 1 - r + Nat.min r (nc + 1))) as [H4|H4]; destruct (Nat.ltb_spec m (nc + 1)) as [H5|H5]; try (unfold m in *; lia); [|reflexivity].
        replace (c - (n + 1 - r))%nat with m by (unfold m; lia). rewrite (map_seq_nth (fun t => nth (n + 1 - r + t * (n + 2)) cco 0)) by (unfold m in *; lia).
        replace (n + 1 - r + m * (n + 2))%nat with (m * (n + 1) + c)%nat by (unfold m; nia). unfold cco.
        rewrite (nth_concat_const _ (n + 1)); [|intros r' H'; eapply bico_In; eauto|rewrite bico_len; lia|lia].
        rewrite nth_bico by lia. apply nth_binrow. lia.
  - destruct (Nat.leb_spec (n + 1) c); [|lia]. rewrite andb_true_r. destruct (Nat.eqb_spec r (nc + 1)); [reflexivity|].
    destruct (Nat.eqb_spec r (n + 1)); [destruct (Nat.ltb_spec c (nc + 1)); [lia|reflexivity]|].
    destruct (Nat.ltb_spec c (n + 1 - r)); [lia|].
    destruct (Nat.leb_spec 1 r); [|reflexivity]. cbn [andb]. rewrite map_length.
    assert (L : (length (slice_indices (length (concat (@bico R _ n nc))) (Some (Z.of_nat (n + 1 - r))) (Some (Z.of_nat ((n + 1) * r))) (Z.of_nat (n + 2))) <= r)%nat).
    { unfold slice_indices. rewrite map_length, seq_length. set (len := length (concat _)). unfold slice_len.
      destruct (Z.ltb_spec (Z.of_nat (n + 2)) 0); [lia|]. set (a := slice_adjust _ _ (Some (Z.of_nat (n + 1 - r))) _). set (b := slice_adjust _ _ _ false).
      assert (Hb : (b <= Z.of_nat ((n + 1) * r))%Z).
      { unfold b, slice_adjust. destruct (Z.ltb_spec (Z.of_nat ((n + 1) * r)) 0); [lia|]. destruct (Z.ltb_spec (Z.of_nat (n + 2)) 0); [lia|].
        destruct (Z.ltb_spec (Z.of_nat len) (Z.of_nat ((n + 1) * r))); lia. }
      destruct (Z.ltb_spec a b) as [Hab|]; [|lia].
      assert (Ha : (a = Z.of_nat (n + 1 - r))%Z).
      { unfold a, slice_adjust in *. destruct (Z.ltb_spec (Z.of_nat (n + 1 - r)) 0); [lia|]. destruct (Z.ltb_spec (Z.of_nat (n + 2)) 0); [lia|].
        destruct (Z.ltb_spec (Z.of_nat len) (Z.of_nat (n + 1 - r))); [|lia].
        assert (b <= Z.of_nat len)%Z; [|lia]. unfold b, slice_adjust. destruct (Z.ltb_spec (Z.of_nat ((n + 1) * r)) 0); [lia|]. destruct (Z.ltb_spec (Z.of_nat (n + 2)) 0); [lia|].
        destruct (Z.ltb_spec (Z.of_nat len) (Z.of_nat ((n + 1) * r))); lia. }
      assert ((b - a - 1) / Z.of_nat (n + 2) < Z.of_nat r)%Z; [|lia].
      apply Z.div_lt_upper_bound; [lia|]. rewrite Ha. nia. }
    match goal with |- context [(?a <? ?b)%nat] => destruct (Nat.ltb_spec a b) end; [exfalso; lia|reflexivity].
Qed.

(* --- one block --------------------------------------------------------------------------------------- *)
(* column c of a block, with the vectors D, X at the block and Dn, Xn at the start of the next one *)
Lemma block_form n nc (xp rat : nat -> nat -> R) k (D X Dn Xn : nat -> R) : (nc < n)%nat ->
  let nx v vn c := if (c <? n + 2 + nc)%nat then v c else vn (c - (n + 2 + nc))%nat in
  rsum (n + 2 + nc) (fun c => sf_a n nc xp rat 0 k c * (D c * X c) +
    rsum (n + 1) (fun s => sf_a n nc xp rat (S s) k c * (nx D Dn (c + S s)%nat * X c + D c * nx X Xn (c + S s)%nat))) =
  rsum (n + 1) (fun p => rsum (n + 1) (fun q => xp k (p + q)%nat * (D p * X q))) +
  rsum (nc + 1) (fun m =>
    D (n + 1 + m)%nat * (rsum (n + 1) (fun c => INR (binom c m) * X c) - rat k m * Xn m) +
    X (n + 1 + m)%nat * (rsum (n + 1) (fun c => INR (binom c m) * D c) - rat k m * Dn m)).
Proof.
  intros Hnc nx. replace (n + 2 + nc)%nat with (n + 1 + (nc + 1))%nat by lia. rewrite rsum_split.
  rewrite (rsum_ext (n + 1) _ (fun c => (xp k (2 * c)%nat * (D c * X c) +
      rsum (n + 1 - 1 - c) (fun s => xp k (S s + 2 * c)%nat * (D (c + S s)%nat * X c + D c * X (c + S s)%nat))) +
      rsum (nc + 1) (fun m => INR (binom c m) * (D (n + 1 + m)%nat * X c + D c * X (n + 1 + m)%nat)))).
  2:{ intros c Hc. rewrite sf_a_spec by lia. unfold sfa_spec at 1. destruct (Nat.ltb_spec c (n + 1)); [|lia].
      destruct (Nat.ltb_spec (c + 0) (n + 1)); [|lia]. cbn [Nat.add]. rewrite Rplus_assoc. f_equal.
      replace (rsum (n + 1)) with (rsum ((n - c) + (c + 1))) by (f_equal; lia). rewrite rsum_split. f_equal.
      - replace (n + 1 - 1 - c)%nat with (n - c)%nat by lia. apply rsum_ext. intros s Hs. rewrite sf_a_spec by lia. unfold sfa_spec, nx.
        destruct (Nat.ltb_spec c (n + 1)); [|lia]. destruct (Nat.ltb_spec (c + S s) (n + 1)); [|lia].
        destruct (Nat.ltb_spec (c + S s) (n + 2 + nc)); [|lia]. reflexivity.
      - transitivity (rsum (c + 1) (fun m => if (m <? nc + 1)%nat then INR (binom c m) * (D (n + 1 + m)%nat * X c + D c * X (n + 1 + m)%nat) else 0)).
        + apply rsum_ext. intros m Hm. rewrite sf_a_spec by lia. unfold sfa_spec, nx. destruct (Nat.ltb_spec c (n + 1)); [|lia].
          destruct (Nat.ltb_spec (c + S (n - c + m)) (n + 1)); [lia|]. replace (c + S (n - c + m) - (n + 1))%nat with m by lia.
          destruct (Nat.ltb_spec m (nc + 1)); [|ring]. destruct (Nat.ltb_spec (c + S (n - c + m)) (n + 2 + nc)); [|lia].
          replace (c + S (n - c + m))%nat with (n + 1 + m)%nat by lia. reflexivity.
        + rewrite (rsum_pad (c + 1) (nc + 1)).
          * apply rsum_ext. intros m Hm. destruct (Nat.ltb_spec m (nc + 1)); [reflexivity|lia].
          * intros m Hm. destruct (Nat.ltb_spec m (nc + 1)); [|reflexivity]. rewrite binom_gt by lia. cbn [INR]. ring. }
  rewrite rsum_plus, (rsum_diag (n + 1) (xp k)), Rplus_assoc. f_equal.
  rewrite (rsum_ext (nc + 1) (fun i => sf_a n nc xp rat 0 k (n + 1 + i) * _ + _) (fun m => - rat k m * (Dn m * X (n + 1 + m)%nat + D (n + 1 + m)%nat * Xn m))).
  2:{ intros m Hm. rewrite sf_a_spec by lia. unfold sfa_spec at 1. destruct (Nat.ltb_spec (n + 1 + m) (n + 1)); [lia|].
      destruct (Nat.eqb_spec 0 (nc + 1)); [lia|].
      rewrite (rsum_single (n + 1) nc); [|lia|].
      - rewrite sf_a_spec by lia. unfold sfa_spec. destruct (Nat.ltb_spec (n + 1 + m) (n + 1)); [lia|].
        destruct (Nat.eqb_spec (S nc) (nc + 1)); [|lia]. unfold nx. destruct (Nat.ltb_spec (n + 1 + m + S nc) (n + 2 + nc)); [lia|].
        replace (n + 1 + m + S nc - (n + 2 + nc))%nat with m by lia. replace (n + 1 + m - (n + 1))%nat with m by lia. ring.
      - intros s Hs Hne. rewrite sf_a_spec by lia. unfold sfa_spec. destruct (Nat.ltb_spec (n + 1 + m) (n + 1)); [lia|].
        destruct (Nat.eqb_spec (S s) (nc + 1)); [lia|]. ring. }
  rewrite rsum_swap, <- rsum_plus. apply rsum_ext. intros m Hm.
  rewrite (rsum_ext (n + 1) _ (fun c => D (n + 1 + m)%nat * (INR (binom c m) * X c) + X (n + 1 + m)%nat * (INR (binom c m) * D c))) by (intros; ring).
  rewrite rsum_plus, !rsum_scal. ring.
Qed.

(* --- the whole system ---------------------------------------------------------------------------------- *)
Lemma ext_lt N D j : (j < N)%nat -> ext N D j = D j.
Proof. intros H. unfold ext. destruct (Nat.ltb_spec j N); [reflexivity|lia]. Qed.
Lemma ext_ge N D j : (N <= j)%nat -> ext N D j = 0.
Proof. intros H. unfold ext. destruct (Nat.ltb_spec j N); [lia|reflexivity]. Qed.
Lemma div_pos k bs c : (c < bs)%nat -> ((k * bs + c) / bs = k)%nat.
Proof. intros H. rewrite Nat.add_comm, Nat.div_add by lia. rewrite Nat.div_small by lia. reflexivity. Qed.
Lemma mod_pos k bs c : (c < bs)%nat -> ((k * bs + c) mod bs = c)%nat.
Proof. intros H. rewrite Nat.add_comm, Nat.mod_add by lia. apply Nat.mod_small. lia. Qed.
(* the vector with boundary multipliers dl, coefficients v and multipliers mu of the blocks *)
Definition vpack (nlo n bs : nat) (dl : nat -> R) (v mu : nat -> nat -> R) (j : nat) : R :=
  if (j <? nlo)%nat then dl j else
  let j' := (j - nlo)%nat in
  if (j' mod bs <? n + 1)%nat then v (j' / bs)%nat (j' mod bs)%nat else mu (j' / bs)%nat (j' mod bs - (n + 1))%nat.
Section Sys.
  Variables n nc nk1 nlo nhi : nat.
  Variables (xp rat : nat -> nat -> R).
  Hypothesis Hnc : (nc < n)%nat.
  Hypothesis Hlo : (nlo <= nc + 1)%nat.
  Hypothesis Hhi : (nhi <= nc + 1)%nat.
  Hypothesis Hk : (1 <= nk1)%nat.
  Local Notation bs := (n + 2 + nc)%nat.
  Definition syslen : nat := (nlo + (bs * nk1 - (nc + 1 - nhi)))%nat.
  Definition sys_at (r j : nat) : R :=
    if (j <? nlo)%nat then (if (r =? nlo)%nat then - (1) else 0) else sf_a n nc xp rat r ((j - nlo) / bs)%nat ((j - nlo) mod bs)%nat.
  Definition sysmat := hlow (n + 1) (Arr2 (n + 2) syslen sys_at).
  Definition bform (D X : nat -> R) : R :=
    - rsum nlo (fun j => D (nlo + j)%nat * X j + D j * X (nlo + j)%nat) +
    rsum nk1 (fun k => rsum (n + 1) (fun p => rsum (n + 1) (fun q => xp k (p + q)%nat * (D (nlo + (k * bs + p))%nat * X (nlo + (k * bs + q))%nat))) +
      rsum (nc + 1) (fun m =>
        D (nlo + (k * bs + (n + 1 + m)))%nat * (rsum (n + 1) (fun c => INR (binom c m) * X (nlo + (k * bs + c))%nat) - rat k m * X (nlo + (S k * bs + m))%nat) +
        X (nlo + (k * bs + (n + 1 + m)))%nat * (rsum (n + 1) (fun c => INR (binom c m) * D (nlo + (k * bs + c))%nat) - rat k m * D (nlo + (S k * bs + m))%nat))).
  Lemma sys_form D X : rsum syslen (fun i => D i * rsum syslen (fun j => sysmat i j * X j)) = bform (ext syslen D) (ext syslen X).
  Proof.
    rewrite (band_quad syslen (n + 1) sys_at sysmat (fun s j => (j + s)%nat)).
    2:{ intros i j _ _. unfold sysmat. rewrite hlow_sum. reflexivity. }
    set (E := ext syslen D). set (Y := ext syslen X).
    rewrite (rsum_ext syslen _ (fun j => sys_at 0 j * (E j * Y j) + rsum (n + 1) (fun s => sys_at (S s) j * (E (j + S s)%nat * Y j + E j * Y (j + S s)%nat)))).
    2:{ intros j Hj. unfold E, Y. rewrite !(ext_lt _ _ j) by auto. reflexivity. }
    assert (LE : (syslen <= nlo + nk1 * bs)%nat) by (unfold syslen; nia).
    rewrite (rsum_pad syslen (nlo + nk1 * bs)).
    2:{ intros j Hj. assert (EE : E j = 0 /\ Y j = 0) by (unfold E, Y; rewrite !ext_ge by lia; auto). destruct EE as [-> ->].
        rewrite rsum_zero; [ring|]. intros; ring. }
    rewrite rsum_split, rsum_blocks. unfold bform. f_equal.
    - rewrite <- rsum_opp. apply rsum_ext. intros j Hj. unfold sys_at at 1. destruct (Nat.ltb_spec j nlo); [|lia].
      destruct (Nat.eqb_spec 0 nlo); [lia|]. rewrite (rsum_single (n + 1) (nlo - 1)); [|lia|].
      + unfold sys_at. destruct (Nat.ltb_spec j nlo); [|lia]. destruct (Nat.eqb_spec (S (nlo - 1)) nlo); [|lia].
        replace (j + S (nlo - 1))%nat with (nlo + j)%nat by lia. ring.
      + intros s Hs Hne. unfold sys_at. destruct (Nat.ltb_spec j nlo); [|lia]. destruct (Nat.eqb_spec (S s) nlo); [lia|]. ring.
    - apply rsum_ext. intros k Hkk.
      rewrite <- (block_form n nc xp rat k (fun c => E (nlo + (k * bs + c))%nat) (fun c => Y (nlo + (k * bs + c))%nat)
        (fun m => E (nlo + (S k * bs + m))%nat) (fun m => Y (nlo + (S k * bs + m))%nat) Hnc).
      apply rsum_ext. intros c Hc. unfold sys_at at 1. destruct (Nat.ltb_spec (nlo + (k * bs + c)) nlo); [lia|].
      replace (nlo + (k * bs + c) - nlo)%nat with (k * bs + c)%nat by lia. rewrite div_pos, mod_pos by auto. f_equal.
      apply rsum_ext. intros s Hs. unfold sys_at. destruct (Nat.ltb_spec (nlo + (k * bs + c)) nlo); [lia|].
      replace (nlo + (k * bs + c) - nlo)%nat with (k * bs + c)%nat by lia. rewrite div_pos, mod_pos by auto. f_equal.
      destruct (Nat.ltb_spec (c + S s) bs).
      + replace (nlo + (k * bs + c) + S s)%nat with (nlo + (k * bs + (c + S s)))%nat by lia. reflexivity.
      + replace (nlo + (k * bs + c) + S s)%nat with (nlo + (S k * bs + (c + S s - bs)))%nat by lia. reflexivity.
  Qed.
  Lemma vpack_lo dl v mu j : (j < nlo)%nat -> vpack nlo n bs dl v mu j = dl j.
  Proof using. clear. intros H. unfold vpack. destruct (Nat.ltb_spec j nlo); [reflexivity|lia]. Qed.
  Lemma vpack_co dl v mu k p : (p < n + 1)%nat -> vpack nlo n bs dl v mu (nlo + (k * bs + p)) = v k p.
  Proof using. clear.
    intros H. unfold vpack. destruct (Nat.ltb_spec (nlo + (k * bs + p)) nlo); [lia|].
    replace (nlo + (k * bs + p) - nlo)%nat with (k * bs + p)%nat by lia. rewrite div_pos, mod_pos by lia.
    destruct (Nat.ltb_spec p (n + 1)); [reflexivity|lia].
  Qed.
  Lemma vpack_mu dl v mu k m : (m < nc + 1)%nat -> vpack nlo n bs dl v mu (nlo + (k * bs + (n + 1 + m))) = mu k m.
  Proof using. clear.
    intros H. unfold vpack. destruct (Nat.ltb_spec (nlo + (k * bs + (n + 1 + m))) nlo); [lia|].
    replace (nlo + (k * bs + (n + 1 + m)) - nlo)%nat with (k * bs + (n + 1 + m))%nat by lia. rewrite div_pos, mod_pos by lia.
    destruct (Nat.ltb_spec (n + 1 + m) (n + 1)); [lia|]. f_equal. lia.
  Qed.
  Lemma syslen_co k p : (k < nk1)%nat -> (p < n + 1)%nat -> (nlo + (k * bs + p) < syslen)%nat.
  Proof. intros H1 H2. unfold syslen. nia. Qed.
  Lemma syslen_mu k m : (S k < nk1)%nat -> (m < nc + 1)%nat -> (nlo + (k * bs + (n + 1 + m)) < syslen)%nat.
  Proof. intros H1 H2. unfold syslen. nia. Qed.
  Lemma syslen_last m : (nlo + ((nk1 - 1) * bs + (n + 1 + m)) < syslen <-> m < nhi)%nat.
  Proof. unfold syslen. replace (bs * nk1)%nat with ((nk1 - 1) * bs + bs)%nat by (destruct nk1; [lia|cbn; lia]). generalize ((nk1 - 1) * bs)%nat. intros. lia. Qed.
  Lemma syslen_next m : (syslen <= nlo + (S (nk1 - 1) * bs + m))%nat.
  Proof. unfold syslen. replace (S (nk1 - 1)) with nk1 by lia. nia. Qed.

  (* the equations of a vector with image b, read off with test vectors *)
  Variables X b : nat -> R.
  Hypothesis HX : forall i, (i < syslen)%nat -> rsum syslen (fun j => sysmat i j * X j) = b i.
  Let Y := ext syslen X.
  Let u k p := X (nlo + (k * bs + p))%nat.
  Let l k m := Y (nlo + (k * bs + (n + 1 + m)))%nat.
  Let cst (v : nat -> nat -> R) k m := rsum (n + 1) (fun c => INR (binom c m) * v k c) -
    (if (S k <? nk1)%nat then rat k m * v (S k) m else 0).
  Lemma sys_test dl v mu : (forall m, (nhi <= m < nc + 1)%nat -> mu (nk1 - 1)%nat m = 0) ->
    - rsum nlo (fun j => v 0%nat j * X j + dl j * u 0 j) +
    rsum nk1 (fun k => rsum (n + 1) (fun p => rsum (n + 1) (fun q => xp k (p + q)%nat * (v k p * u k q))) +
      rsum (nc + 1) (fun m => mu k m * cst u k m + l k m * cst v k m)) =
    rsum nlo (fun j => dl j * b j) +
    rsum nk1 (fun k => rsum (n + 1) (fun p => v k p * b (nlo + (k * bs + p))%nat) + rsum (nc + 1) (fun m => mu k m * ext syslen b (nlo + (k * bs + (n + 1 + m))%nat))).
  Proof using Hnc Hlo Hhi Hk HX.
    intros Hmu. pose proof (solves_form _ _ _ _ HX (vpack nlo n bs dl v mu)) as E. rewrite sys_form in E.
    set (D := vpack nlo n bs dl v mu) in *. unfold bform in E.
    assert (DL : forall j, (j < nlo)%nat -> ext syslen D j = dl j).
    { intros j Hj. rewrite ext_lt by (unfold syslen; lia). apply vpack_lo; auto. }
    assert (XL : forall j, (j < nlo)%nat -> ext syslen X j = X j) by (intros j Hj; apply ext_lt; unfold syslen; lia).
    assert (DC : forall k p, (k < nk1)%nat -> (p < n + 1)%nat -> ext syslen D (nlo + (k * bs + p)) = v k p).
    { intros k p H1 H2. rewrite ext_lt by (apply syslen_co; auto). apply vpack_co; auto. }
    assert (XC : forall k p, (k < nk1)%nat -> (p < n + 1)%nat -> ext syslen X (nlo + (k * bs + p)) = u k p).
    { intros k p H1 H2. rewrite ext_lt by (apply syslen_co; auto). reflexivity. }
    assert (DM : forall k m, (k < nk1)%nat -> (m < nc + 1)%nat -> ext syslen D (nlo + (k * bs + (n + 1 + m))) = mu k m).
    { intros k m H1 H2. destruct (Nat.eq_dec k (nk1 - 1)) as [->|].
      - destruct (Nat.lt_ge_cases m nhi).
        + rewrite ext_lt by (apply syslen_last; auto). apply vpack_mu; auto.
        + rewrite ext_ge; [symmetry; apply Hmu; lia|]. pose proof (syslen_last m). lia.
      - rewrite ext_lt by (apply syslen_mu; lia). apply vpack_mu; auto. }
    assert (DN : forall k m, (k < nk1)%nat -> (m < nc + 1)%nat -> ext syslen D (nlo + (S k * bs + m)) = if (S k <? nk1)%nat then v (S k) m else 0).
    { intros k m H1 H2. destruct (Nat.ltb_spec (S k) nk1); [apply DC; lia|]. replace k with (nk1 - 1)%nat by lia. apply ext_ge, syslen_next. }
    assert (XN : forall k m, (k < nk1)%nat -> (m < nc + 1)%nat -> ext syslen X (nlo + (S k * bs + m)) = if (S k <? nk1)%nat then u (S k) m else 0).
    { intros k m H1 H2. destruct (Nat.ltb_spec (S k) nk1); [apply XC; lia|]. replace k with (nk1 - 1)%nat by lia. apply ext_ge, syslen_next. }
    etransitivity; [|etransitivity; [exact E|]]; clear E.
    - f_equal.
      + f_equal. apply rsum_ext. intros j Hj. pose proof (DC 0%nat j ltac:(lia) ltac:(lia)) as A1. pose proof (XC 0%nat j ltac:(lia) ltac:(lia)) as A2.
        cbn [Nat.mul Nat.add] in A1, A2. rewrite A1, A2, DL, XL by auto. reflexivity.
      + apply rsum_ext. intros k Hkk. f_equal.
        * apply rsum_ext. intros p Hp. apply rsum_ext. intros q Hq. rewrite DC, XC by auto. reflexivity.
        * apply rsum_ext. intros m Hm. rewrite DM, DN, XN by auto. unfold cst.
          rewrite (rsum_ext (n + 1) (fun c => INR (binom c m) * ext syslen X _) (fun c => INR (binom c m) * u k c)) by (intros c Hc; rewrite XC by auto; reflexivity).
          rewrite (rsum_ext (n + 1) (fun c => INR (binom c m) * ext syslen D _) (fun c => INR (binom c m) * v k c)) by (intros c Hc; rewrite DC by auto; reflexivity).
          unfold l, Y. destruct (_ <? _)%nat; ring.
    - rewrite (rsum_ext syslen _ (fun j => ext syslen D j * ext syslen b j)) by (intros j Hj; rewrite !ext_lt by auto; reflexivity).
      assert (LE : (syslen <= nlo + nk1 * bs)%nat) by (unfold syslen; nia).
      rewrite (rsum_pad syslen (nlo + nk1 * bs)) by (intros j Hj; rewrite (ext_ge _ D) by lia; ring).
      rewrite rsum_split, rsum_blocks. f_equal.
      + apply rsum_ext. intros j Hj. rewrite DL by auto. rewrite ext_lt by (unfold syslen; lia). reflexivity.
      + apply rsum_ext. intros k Hkk. replace bs with (n + 1 + (nc + 1))%nat at 1 by lia. rewrite rsum_split. f_equal.
        * apply rsum_ext. intros p Hp. rewrite DC by auto. rewrite ext_lt by (apply syslen_co; auto). reflexivity.
        * apply rsum_ext. intros m Hm. rewrite DM by auto. reflexivity.
  Qed.
  (* the constraints *)
  Lemma sys_con k m : (S k < nk1)%nat -> (m < nc + 1)%nat ->
    rsum (n + 1) (fun c => INR (binom c m) * u k c) - rat k m * u (S k) m = b (nlo + (k * bs + (n + 1 + m)))%nat.
  Proof using Hnc Hlo Hhi Hk HX.
    intros H1 H2. pose proof (sys_test (fun _ => 0) (fun _ _ => 0) (fun k' m' => if ((k' =? k) && (m' =? m))%nat then 1 else 0)) as E.
    rewrite (rsum_zero nlo) in E by (intros; ring). rewrite (rsum_zero nlo) in E by (intros; ring).
    rewrite (rsum_single nk1 k) in E; [|lia|].
    2:{ intros k' _ Hne. rewrite (rsum_zero (n + 1)) by (intros; apply rsum_zero; intros; ring). rewrite rsum_zero; [ring|]. intros m' _.
        replace (k' =? k)%nat with false by (symmetry; apply Nat.eqb_neq; auto). cbn [andb]. unfold cst. rewrite (rsum_zero (n + 1) (fun c => INR (binom c m') * 0)) by (intros; ring).
        destruct (_ <? _)%nat; ring. }
    rewrite (rsum_single nk1 k (fun k' => rsum (n + 1) (fun p => 0 * _) + _)) in E; [|lia|].
    2:{ intros k' _ Hne. rewrite (rsum_zero (n + 1)) by (intros; ring). rewrite rsum_zero; [ring|]. intros m' _.
        replace (k' =? k)%nat with false by (symmetry; apply Nat.eqb_neq; auto). cbn [andb]. ring. }
    rewrite (rsum_zero (n + 1)) in E by (intros; apply rsum_zero; intros; ring). rewrite (rsum_zero (n + 1)) in E by (intros; ring).
    rewrite (rsum_single (nc + 1) m) in E; [|lia|].
    2:{ intros m' _ Hne. replace (m' =? m)%nat with false by (symmetry; apply Nat.eqb_neq; auto). rewrite andb_false_r.
        unfold cst. rewrite (rsum_zero (n + 1) (fun c => INR (binom c m') * 0)) by (intros; ring). destruct (_ <? _)%nat; ring. }
    rewrite (rsum_single (nc + 1) m) in E; [|lia|].
    2:{ intros m' _ Hne. replace (m' =? m)%nat with false by (symmetry; apply Nat.eqb_neq; auto). rewrite andb_false_r. ring. }
    rewrite !Nat.eqb_refl in E. cbn [andb] in E. unfold cst in E. rewrite (rsum_zero (n + 1) (fun c => INR (binom c m) * 0)) in E by (intros; ring).
    destruct (Nat.ltb_spec (S k) nk1); [|lia]. rewrite ext_lt in E by (apply syslen_mu; auto).
    rewrite <- (Rmult_1_l (b _)). rewrite <- (Rplus_0_l (1 * b _)), <- (Rplus_0_l (0 + _)). rewrite <- E by (intros m' Hm'; destruct (Nat.eqb_spec (nk1 - 1) k); [lia|reflexivity]).
    ring.
  Qed.
  Lemma sys_hi m : (m < nhi)%nat ->
    rsum (n + 1) (fun c => INR (binom c m) * u (nk1 - 1)%nat c) = b (nlo + ((nk1 - 1) * bs + (n + 1 + m)))%nat.
  Proof using Hnc Hlo Hhi Hk HX.
    intros H2. set (k := (nk1 - 1)%nat). pose proof (sys_test (fun _ => 0) (fun _ _ => 0) (fun k' m' => if ((k' =? k) && (m' =? m))%nat then 1 else 0)) as E.
    rewrite (rsum_zero nlo) in E by (intros; ring). rewrite (rsum_zero nlo) in E by (intros; ring).
    rewrite (rsum_single nk1 k) in E; [|unfold k; lia|].
    2:{ intros k' _ Hne. rewrite (rsum_zero (n + 1)) by (intros; apply rsum_zero; intros; ring). rewrite rsum_zero; [ring|]. intros m' _.
        replace (k' =? k)%nat with false by (symmetry; apply Nat.eqb_neq; auto). cbn [andb]. unfold cst. rewrite (rsum_zero (n + 1) (fun c => INR (binom c m') * 0)) by (intros; ring).
        destruct (_ <? _)%nat; ring. }
    rewrite (rsum_single nk1 k (fun k' => rsum (n + 1) (fun p => 0 * _) + _)) in E; [|unfold k; lia|].
    2:{ intros k' _ Hne. rewrite (rsum_zero (n + 1)) by (intros; ring). rewrite rsum_zero; [ring|]. intros m' _.
        replace (k' =? k)%nat with false by (symmetry; apply Nat.eqb_neq; auto). cbn [andb]. ring. }
    rewrite (rsum_zero (n + 1)) in E by (intros; apply rsum_zero; intros; ring). rewrite (rsum_zero (n + 1)) in E by (intros; ring).
    rewrite (rsum_single (nc + 1) m) in E; [|lia|].
    2:{ intros m' _ Hne. replace (m' =? m)%nat with false by (symmetry; apply Nat.eqb_neq; auto). rewrite andb_false_r.
        unfold cst. rewrite (rsum_zero (n + 1) (fun c => INR (binom c m') * 0)) by (intros; ring). destruct (_ <? _)%nat; ring. }
    rewrite (rsum_single (nc + 1) m) in E; [|lia|].
    2:{ intros m' _ Hne. replace (m' =? m)%nat with false by (symmetry; apply Nat.eqb_neq; auto). rewrite andb_false_r. ring. }
    rewrite !Nat.eqb_refl in E. cbn [andb] in E. unfold cst in E. rewrite (rsum_zero (n + 1) (fun c => INR (binom c m) * 0)) in E by (intros; ring).
    destruct (Nat.ltb_spec (S k) nk1); [unfold k in *; lia|]. rewrite ext_lt in E by (apply syslen_last; auto).
    rewrite <- (Rmult_1_l (b _)). rewrite <- (Rplus_0_l (1 * b _)), <- (Rplus_0_l (0 + _)).
    rewrite <- E by (intros m' Hm'; cbv beta; destruct (Nat.eqb_spec m' m); [lia|reflexivity]). ring.
  Qed.
  Lemma sys_lo j : (j < nlo)%nat -> - u 0%nat j = b j.
  Proof using Hnc Hlo Hhi Hk HX.
    intros H2. pose proof (sys_test (fun j' => if (j' =? j)%nat then 1 else 0) (fun _ _ => 0) (fun _ _ => 0) ltac:(reflexivity)) as E.
    rewrite (rsum_single nlo j) in E; [|auto|intros j' _ Hne; destruct (Nat.eqb_spec j' j); [lia|ring]].
    rewrite (rsum_single nlo j (fun j' => _ * b j')) in E; [|auto|intros j' _ Hne; destruct (Nat.eqb_spec j' j); [lia|ring]].
    rewrite Nat.eqb_refl in E.
    rewrite (rsum_zero nk1) in E.
    2:{ intros k _. rewrite (rsum_zero (n + 1)) by (intros; apply rsum_zero; intros; ring). rewrite rsum_zero; [ring|]. intros m _.
        unfold cst. rewrite (rsum_zero (n + 1) (fun c => INR (binom c m) * 0)) by (intros; ring). destruct (_ <? _)%nat; ring. }
    rewrite (rsum_zero nk1) in E. 2:{ intros k _. rewrite !rsum_zero; intros; ring. } lra.
  Qed.
  (* the stationarity condition *)
  Lemma sys_stat v :
    rsum nk1 (fun k => rsum (n + 1) (fun p => rsum (n + 1) (fun q => xp k (p + q)%nat * (v k p * u k q)))) -
    rsum nk1 (fun k => rsum (n + 1) (fun p => v k p * b (nlo + (k * bs + p))%nat)) =
    rsum nlo (fun j => X j * v 0%nat j) - rsum nk1 (fun k => rsum (nc + 1) (fun m => l k m * cst v k m)).
  Proof using Hnc Hlo Hhi Hk HX.
    pose proof (sys_test (fun _ => 0) v (fun _ _ => 0) ltac:(reflexivity)) as E. cbv beta in E.
    rewrite (rsum_ext nlo (fun j => v 0%nat j * X j + 0 * u 0 j) (fun j => X j * v 0%nat j)) in E by (intros; ring).
    rewrite (rsum_zero nlo (fun j => 0 * b j)) in E by (intros; ring). rewrite !rsum_plus in E.
    rewrite (rsum_zero nk1 (fun k => rsum (nc + 1) (fun m => 0 * ext _ _ _))) in E by (intros; apply rsum_zero; intros; ring).
    rewrite (rsum_ext nk1 (fun k => rsum (nc + 1) (fun m => 0 * cst u k m + _)) (fun k => rsum (nc + 1) (fun m => l k m * cst v k m))) in E
      by (intros; apply rsum_ext; intros; ring). lra.
  Qed.
End Sys.

(* --- the periodic system ------------------------------------------------------------------------------ *)
Section SysPer.
  Variables n nc nk1 : nat.
  Variables (xp rat : nat -> nat -> R).
  Hypothesis Hnc : (nc < n)%nat.
  Hypothesis Hk : (1 <= nk1)%nat.
  Local Notation bs := (n + 2 + nc)%nat.
  Local Notation N := (bs * nk1)%nat.
  Definition persys_at (r j : nat) : R := sf_a n nc xp rat r (j / bs)%nat (j mod bs)%nat.
  Definition permat := symlow (n + 1) (Arr2 (n + 2) N persys_at).
  Local Notation nxt k := ((k + 1) mod nk1)%nat.
  Lemma nxt_lt k : (nxt k < nk1)%nat.
  Proof using Hk. clear Hnc. apply Nat.mod_upper_bound. lia. Qed.
  Definition pform (D X : nat -> R) : R :=
    rsum nk1 (fun k => rsum (n + 1) (fun p => rsum (n + 1) (fun q => xp k (p + q)%nat * (D (k * bs + p)%nat * X (k * bs + q)%nat))) +
      rsum (nc + 1) (fun m =>
        D (k * bs + (n + 1 + m))%nat * (rsum (n + 1) (fun c => INR (binom c m) * X (k * bs + c)%nat) - rat k m * X (nxt k * bs + m)%nat) +
        X (k * bs + (n + 1 + m))%nat * (rsum (n + 1) (fun c => INR (binom c m) * D (k * bs + c)%nat) - rat k m * D (nxt k * bs + m)%nat))).
  Lemma pos_lt k c : (k < nk1)%nat -> (c < bs)%nat -> (k * bs + c < N)%nat.
  Proof using. clear. nia. Qed.
  Lemma per_form D X : rsum N (fun i => D i * rsum N (fun j => permat i j * X j)) = pform D X.
  Proof using Hnc Hk.
    rewrite (band_quad N (n + 1) persys_at permat (fun s j => ((j + s) mod N)%nat)).
    2:{ intros i j _ _. unfold permat, symlow. reflexivity. }
    rewrite Nat.mul_comm, rsum_blocks. unfold pform. apply rsum_ext. intros k Hkk.
    rewrite <- (block_form n nc xp rat k (fun c => D (k * bs + c)%nat) (fun c => X (k * bs + c)%nat)
        (fun m => D (nxt k * bs + m)%nat) (fun m => X (nxt k * bs + m)%nat) Hnc).
    apply rsum_ext. intros c Hc. unfold persys_at at 1. rewrite div_pos, mod_pos by auto. f_equal.
    apply rsum_ext. intros s Hs. unfold persys_at. rewrite div_pos, mod_pos by auto.
    assert (HN : (nk1 * bs <> 0)%nat) by nia.
    assert (J : ((k * bs + c + S s) mod (nk1 * bs) = if (c + S s <? bs) then k * bs + (c + S s) else nxt k * bs + (c + S s - bs))%nat).
    { destruct (Nat.ltb_spec (c + S s) bs).
      - rewrite Nat.mod_small by nia. lia.
      - replace (k * bs + c + S s)%nat with ((k + 1) * bs + (c + S s - bs))%nat by lia.
        destruct (Nat.eq_dec (k + 1) nk1) as [E|E].
        + rewrite E, Nat.mod_same, Nat.add_comm by lia. rewrite <- (Nat.mul_1_l (nk1 * bs)) at 1. rewrite Nat.mod_add, Nat.mod_small by nia. reflexivity.
        + rewrite (Nat.mod_small (k + 1)) by lia. apply Nat.mod_small. nia. }
    rewrite !ext_lt by (apply Nat.mod_upper_bound; auto). rewrite J. destruct (c + S s <? bs)%nat; reflexivity.
  Qed.
  Variables X b : nat -> R.
  Hypothesis HX : forall i, (i < N)%nat -> rsum N (fun j => permat i j * X j) = b i.
  Let u k p := X (k * bs + p)%nat.
  Let l k m := X (k * bs + (n + 1 + m))%nat.
  Let cst (v : nat -> nat -> R) k m := rsum (n + 1) (fun c => INR (binom c m) * v k c) - rat k m * v (nxt k) m.
  Lemma per_test v mu :
    rsum nk1 (fun k => rsum (n + 1) (fun p => rsum (n + 1) (fun q => xp k (p + q)%nat * (v k p * u k q))) +
      rsum (nc + 1) (fun m => mu k m * cst u k m + l k m * cst v k m)) =
    rsum nk1 (fun k => rsum (n + 1) (fun p => v k p * b (k * bs + p)%nat) + rsum (nc + 1) (fun m => mu k m * b (k * bs + (n + 1 + m))%nat)).
  Proof using Hnc Hk HX.
    pose proof (solves_form _ _ _ _ HX (vpack 0 n bs (fun _ => 0) v mu)) as E. rewrite per_form in E.
    set (D := vpack 0 n bs (fun _ => 0) v mu) in *. unfold pform in E.
    assert (DC : forall k p, (p < n + 1)%nat -> D (k * bs + p)%nat = v k p).
    { intros k p H2. apply (vpack_co n nc 0 (fun _ => 0) v mu k p H2). }
    assert (DM : forall k m, (m < nc + 1)%nat -> D (k * bs + (n + 1 + m))%nat = mu k m).
    { intros k m H2. apply (vpack_mu n nc 0 (fun _ => 0) v mu k m H2). }
    etransitivity; [|etransitivity; [exact E|]]; clear E.
    - apply rsum_ext. intros k Hkk. f_equal.
      + apply rsum_ext. intros p Hp. apply rsum_ext. intros q Hq. rewrite DC by auto. reflexivity.
      + apply rsum_ext. intros m Hm. rewrite DM, DC by lia. unfold cst.
        rewrite (rsum_ext (n + 1) (fun c => INR (binom c m) * D _) (fun c => INR (binom c m) * v k c)) by (intros c Hc; rewrite DC by auto; reflexivity).
        reflexivity.
    - rewrite Nat.mul_comm, rsum_blocks. apply rsum_ext. intros k Hkk. replace bs with (n + 1 + (nc + 1))%nat at 1 by lia. rewrite rsum_split. f_equal.
      + apply rsum_ext. intros p Hp. rewrite DC by auto. reflexivity.
      + apply rsum_ext. intros m Hm. rewrite DM by auto. reflexivity.
  Qed.
  Lemma per_con k m : (k < nk1)%nat -> (m < nc + 1)%nat ->
    rsum (n + 1) (fun c => INR (binom c m) * u k c) - rat k m * u (nxt k) m = b (k * bs + (n + 1 + m))%nat.
  Proof using Hnc Hk HX.
    intros H1 H2. pose proof (per_test (fun _ _ => 0) (fun k' m' => if ((k' =? k) && (m' =? m))%nat then 1 else 0)) as E. cbv beta in E.
    rewrite (rsum_single nk1 k) in E; [|lia|].
    2:{ intros k' _ Hne. rewrite (rsum_zero (n + 1)) by (intros; apply rsum_zero; intros; ring). rewrite rsum_zero; [ring|]. intros m' _.
        replace (k' =? k)%nat with false by (symmetry; apply Nat.eqb_neq; auto). cbn [andb]. unfold cst. rewrite (rsum_zero (n + 1) (fun c => INR (binom c m') * 0)) by (intros; ring). ring. }
    rewrite (rsum_single nk1 k (fun k' => rsum (n + 1) (fun p => 0 * _) + _)) in E; [|lia|].
    2:{ intros k' _ Hne. rewrite (rsum_zero (n + 1)) by (intros; ring). rewrite rsum_zero; [ring|]. intros m' _.
        replace (k' =? k)%nat with false by (symmetry; apply Nat.eqb_neq; auto). cbn [andb]. ring. }
    rewrite (rsum_zero (n + 1)) in E by (intros; apply rsum_zero; intros; ring). rewrite (rsum_zero (n + 1)) in E by (intros; ring).
    rewrite (rsum_single (nc + 1) m) in E; [|lia|].
    2:{ intros m' _ Hne. replace (m' =? m)%nat with false by (symmetry; apply Nat.eqb_neq; auto). rewrite andb_false_r.
        unfold cst. rewrite (rsum_zero (n + 1) (fun c => INR (binom c m') * 0)) by (intros; ring). ring. }
    rewrite (rsum_single (nc + 1) m) in E; [|lia|].
    2:{ intros m' _ Hne. replace (m' =? m)%nat with false by (symmetry; apply Nat.eqb_neq; auto). rewrite andb_false_r. ring. }
    rewrite !Nat.eqb_refl in E. cbn [andb] in E. unfold cst in E. rewrite (rsum_zero (n + 1) (fun c => INR (binom c m) * 0)) in E by (intros; ring).
    lra.
  Qed.
  Lemma per_stat v :
    rsum nk1 (fun k => rsum (n + 1) (fun p => rsum (n + 1) (fun q => xp k (p + q)%nat * (v k p * u k q)))) -
    rsum nk1 (fun k => rsum (n + 1) (fun p => v k p * b (k * bs + p)%nat)) =
    - rsum nk1 (fun k => rsum (nc + 1) (fun m => l k m * cst v k m)).
  Proof using Hnc Hk HX.
    pose proof (per_test v (fun _ _ => 0)) as E. cbv beta in E. rewrite !rsum_plus in E.
    rewrite (rsum_zero nk1 (fun k => rsum (nc + 1) (fun m => 0 * b _))) in E by (intros; apply rsum_zero; intros; ring).
    rewrite (rsum_ext nk1 (fun k => rsum (nc + 1) (fun m => 0 * cst u k m + _)) (fun k => rsum (nc + 1) (fun m => l k m * cst v k m))) in E
      by (intros; apply rsum_ext; intros; ring). lra.
  Qed.
End SysPer.
