(* Facts about the PwPoly constructor and reknot (npplus/pwpoly.py:181-296,
   548-591) over the reals. *)
From Coq Require Import Reals List Arith Lia Lra ZArith Bool.
From Verif Require Import Num PyBase NdArray Poly SpecPoly PolyProofs PwPoly PwBase PwDeriv PwInteg.
Import ListNotations.
Local Open Scope R_scope.

(* ---- finite sums ---- *)
Lemma ksum_ext n (f g : nat -> R) : (forall i, (i < n)%nat -> f i = g i) -> ksum n f = ksum n g.
Proof.
  induction n as [|n IH]; intros H; cbn; [reflexivity|]. numR. rewrite IH, H; auto.
Qed.
Lemma ksum_scal n c (f : nat -> R) : ksum n (fun i => c * f i) = c * ksum n f.
Proof. induction n as [|n IH]; cbn; numR; [ring|]. rewrite IH. ring. Qed.
Lemma ksum_plus n (f g : nat -> R) : ksum n (fun i => f i + g i) = ksum n f + ksum n g.
Proof. induction n as [|n IH]; cbn; numR; [ring|]. rewrite IH. ring. Qed.
Lemma ksum_0 n (f : nat -> R) : (forall i, (i < n)%nat -> f i = 0) -> ksum n f = 0.
Proof. induction n as [|n IH]; intros H; cbn; numR; [reflexivity|]. rewrite IH, H by auto. ring. Qed.
Lemma ksum_swap n m (f : nat -> nat -> R) :
  ksum n (fun i => ksum m (f i)) = ksum m (fun j => ksum n (fun i => f i j)).
Proof.
  induction n as [|n IH]; cbn; numR.
  - symmetry. apply ksum_0. reflexivity.
  - rewrite IH, ksum_plus. reflexivity.
Qed.
Lemma ksum_delta n k (f : nat -> R) : (k < n)%nat ->
  ksum n (fun j => (if (k =? j)%nat then 1 else 0) * f j) = f k.
Proof.
  induction n as [|n IH]; intros H; [lia|]. cbn. numR.
  destruct (Nat.eqb_spec k n) as [->|N].
  - rewrite ksum_0; [ring|]. intros i Hi. destruct (Nat.eqb_spec n i); [lia|ring].
  - rewrite IH by lia. ring.
Qed.
Lemma ksum_S_l n (f : nat -> R) : ksum (S n) f = f 0%nat + ksum n (fun i => f (S i)).
Proof.
  induction n as [|n IH]; [cbn; numR; ring|].
  change (ksum (S n) f + f (S n) = f 0%nat + (ksum n (fun i => f (S i)) + f (S n))).
  rewrite IH. ring.
Qed.

(* ---- Taylor coefficients of sums and monomials ---- *)
Lemma tay_zeros k m x : tay k (repeat 0 m) x = 0.
Proof. apply (tay_app_zeros k [] m x). Qed.
Lemma tay_app k c d x : tay k (c ++ d) x = tay k c x + tay k (repeat 0 (length c) ++ d) x.
Proof.
  revert k; induction c as [|a c IH]; intros k; cbn [app length repeat].
  - cbn. ring.
  - cbn [tay]. destruct k; rewrite !IH; ring.
Qed.
(* binomial coefficient C(m,k) *)
Definition bin (m k : nat) : R := tay k (repeat 0 m ++ [1]) 1.
Lemma tay_mono k m a x : tay k (repeat 0 m ++ [a]) x * x ^ k = a * x ^ m * bin m k.
Proof.
  unfold bin. revert k; induction m as [|m IH]; intros k; cbn [repeat app].
  - destruct k; cbn; ring.
  - cbn [tay]. destruct k.
    + specialize (IH 0%nat). cbn [pow] in *. nra.
    + pose proof (IH (S k)) as I1. pose proof (IH k) as I2.
      replace ((x * tay (S k) (repeat 0 m ++ [a]) x + tay k (repeat 0 m ++ [a]) x) * x ^ S k)
        with (x * (tay (S k) (repeat 0 m ++ [a]) x * x ^ S k) + x * (tay k (repeat 0 m ++ [a]) x * x ^ k)) by (cbn; ring).
      rewrite I1, I2. cbn [pow]. ring.
Qed.
Lemma tay_shifted k m d x :
  tay k (repeat 0 m ++ d) x * x ^ k = ksum (length d) (fun j => nth j d 0 * x ^ (m + j) * bin (m + j) k).
Proof.
  revert m; induction d as [|a d IH]; intros m.
  - rewrite app_nil_r, tay_zeros. cbn. numR. ring.
  - replace (repeat 0 m ++ a :: d) with ((repeat 0 m ++ [a]) ++ d) by (rewrite <- app_assoc; reflexivity).
    rewrite tay_app, Rmult_plus_distr_r, tay_mono.
    replace (length (repeat 0 m ++ [a])) with (S m) by (rewrite app_length, repeat_length; cbn; lia).
    rewrite IH. cbn [length]. rewrite ksum_S_l. cbn [nth]. rewrite Nat.add_0_r. f_equal.
    apply ksum_ext. intros j _. replace (S m + j)%nat with (m + S j)%nat by lia. reflexivity.
Qed.

(* the matrix of _two_sided_inverse *)
Lemma eye_col_eq h j : (j <= h)%nat ->
  eye_col h j = repeat 0 (h + 1 + j) ++ [1] ++ repeat 0 (h - j).
Proof.
  intros Hj. apply list_eq_nth.
  - unfold eye_col. rewrite map_length, seq_length, !app_length, !repeat_length. cbn; lia.
  - intros i Hi. unfold eye_col in *. rewrite map_length, seq_length in Hi.
    rewrite nth_indep with (d' := (if (0 =? h + 1 + j)%nat then n1 else n0)) by (rewrite map_length, seq_length; lia).
    rewrite (map_nth (fun i => if (i =? h + 1 + j)%nat then n1 else n0)). rewrite seq_nth by lia. cbn [Nat.add].
    numR. destruct (Nat.eqb_spec i (h + 1 + j)) as [->|N].
    + rewrite app_nth2 by (rewrite repeat_length; lia). rewrite repeat_length, Nat.sub_diag. reflexivity.
    + destruct (le_lt_dec (h + 1 + j) i).
      * rewrite app_nth2, repeat_length by (rewrite repeat_length; lia).
        destruct (i - (h + 1 + j))%nat eqn:E; [lia|]. cbn. symmetry. apply nth_repeat.
      * rewrite app_nth1 by (rewrite repeat_length; lia). symmetry. apply nth_repeat.
Qed.
Lemma two_sided_bin h k j : (k <= h)%nat -> (j <= h)%nat ->
  two_sided h k j = bin (h + 1 + j) k.
Proof.
  intros Hk Hj. unfold two_sided. numR.
  assert (HL : length (@eye_col R _ h j) = (2 * h + 2)%nat) by (unfold eye_col; rewrite map_length, seq_length; lia).
  rewrite taylor_tlist by lia. rewrite tlist_nth by lia. rewrite eye_col_eq by lia.
  rewrite app_assoc, tay_app_zeros. reflexivity.
Qed.

(* the square matrices N with M N = I *)
Definition right_inverse (n : nat) (M N : nat -> nat -> R) : Prop :=
  forall i j, (i < n)%nat -> (j < n)%nat ->
    ksum n (fun k => M i k * N k j) = if (i =? j)%nat then 1 else 0.

(* an explicit inverse: solve x^m q(x) = r(x-1) modulo (x-1)^n *)
Fixpoint alt (prev : R) (r : list R) : list R :=
  match r with [] => [] | a :: t => (a - prev) :: alt (a - prev) t end.
Fixpoint qsol (m : nat) (r : list R) : list R :=
  match m with O => tlist (length r - 1) r (-1) | S m' => qsol m' (alt 0 r) end.
Lemma alt_length p r : length (alt p r) = length r.
Proof. revert p; induction r as [|a r IH]; intros p; cbn; auto. Qed.
Lemma alt_nth0 p r : (0 < length r)%nat -> nth 0 (alt p r) 0 = nth 0 r 0 - p.
Proof. destruct r; cbn; [lia|reflexivity]. Qed.
Lemma alt_nthS p r k : (S k < length r)%nat -> nth (S k) (alt p r) 0 = nth (S k) r 0 - nth k (alt p r) 0.
Proof.
  revert p k; induction r as [|a r IH]; intros p k H; cbn in H; [lia|]. cbn [alt nth].
  destruct k; [apply alt_nth0; lia|]. apply IH; lia.
Qed.
Lemma qsol_length m r : (0 < length r)%nat -> length (qsol m r) = length r.
Proof.
  revert r; induction m as [|m IH]; intros r H; cbn.
  - rewrite map_length, seq_length. lia.
  - rewrite IH; rewrite alt_length; auto.
Qed.
Lemma qsol_ok m r k : (k < length r)%nat -> tay k (repeat 0 m ++ qsol m r) 1 = nth k r 0.
Proof.
  revert r k; induction m as [|m IH]; intros r k H; cbn [repeat app qsol].
  - rewrite tay_tlist by lia. replace (-1 + 1) with 0 by ring. apply tay_at_0.
  - cbn [tay]. destruct k.
    + rewrite IH by (rewrite alt_length; lia). rewrite alt_nth0 by lia. ring.
    + rewrite !IH by (rewrite alt_length; lia). rewrite alt_nthS by lia. ring.
Qed.
Definition unit_vec (n j : nat) : list R := map (fun i => if (i =? j)%nat then 1 else 0) (seq 0 n).
Lemma unit_vec_length n j : length (unit_vec n j) = n.
Proof. unfold unit_vec. rewrite map_length, seq_length. reflexivity. Qed.
Lemma unit_vec_nth n i j : (i < n)%nat -> nth i (unit_vec n j) 0 = if (i =? j)%nat then 1 else 0.
Proof.
  intros H. unfold unit_vec.
  rewrite nth_indep with (d' := if (0 =? j)%nat then 1 else 0) by (rewrite map_length, seq_length; lia).
  rewrite (map_nth (fun i => if (i =? j)%nat then 1 else 0)), seq_nth by lia. reflexivity.
Qed.
(* the binomial matrix is invertible, for every h *)
Lemma two_sided_invertible h :
  right_inverse (S h) (two_sided h) (fun i j => nth i (qsol (h + 1) (unit_vec (S h) j)) 0).
Proof.
  intros i j Hi Hj. set (q := qsol (h + 1) (unit_vec (S h) j)).
  assert (HL : length q = S h) by (unfold q; rewrite qsol_length; rewrite unit_vec_length; lia).
  rewrite <- (unit_vec_nth (S h)) by lia. rewrite <- (qsol_ok (h + 1)) by (rewrite unit_vec_length; lia). fold q.
  pose proof (tay_shifted i (h + 1) q 1) as T. rewrite pow1, Rmult_1_r in T. rewrite T, HL.
  apply ksum_ext. intros k Hk. rewrite two_sided_bin, pow1 by lia. ring.
Qed.

(* numpy.linalg.inv of an invertible matrix is an inverse *)
Definition inv_spec (inv : nat -> (nat -> nat -> R) -> (nat -> nat -> R)) : Prop :=
  forall n M N, right_inverse n M N -> right_inverse n M (inv n M).
Lemma inv_two_sided inv h : inv_spec inv -> right_inverse (S h) (two_sided h) (inv (S h) (two_sided h)).
Proof. intros H. eapply H. apply two_sided_invertible. Qed.

(* ---- one finite interval ---- *)
Lemma map_seq_nth (f : nat -> R) n k : (k < n)%nat -> nth k (map f (seq 0 n)) 0 = f k.
Proof.
  intros H. rewrite nth_indep with (d' := f 0%nat) by (rewrite map_length, seq_length; lia).
  rewrite (map_nth f), seq_nth by lia. reflexivity.
Qed.
Section Col.
  Variables (h : nat) (minv : nat -> nat -> R) (xk : list R) (a : nat -> nat -> R)
            (z : option (nat -> R)) (i : nat).
  Hypothesis Hinv : right_inverse (S h) (two_sided h) minv.
  Hypothesis Hdx : dxs xk i <> 0.
  Let col := ctor_col h minv xk a z i.
  Let zl := match z with None => [] | Some f => [f i] end.

  Lemma ctor_col_length : length col = (S h + S h + length zl)%nat.
  Proof. unfold col, ctor_col. rewrite !app_length, !map_length, !seq_length. fold zl. lia. Qed.
  Lemma ctor_col_left k : (k <= h)%nat -> nth k col 0 = a k i.
  Proof.
    intros Hk. unfold col, ctor_col. rewrite app_nth1 by (rewrite map_length, seq_length; lia).
    rewrite map_seq_nth by lia. reflexivity.
  Qed.
  Lemma ctor_col_top f : z = Some f -> nth (2 * h + 2) col 0 = f i.
  Proof.
    intros E. unfold col, ctor_col. rewrite E. rewrite app_assoc.
    rewrite app_nth2 by (rewrite app_length, !map_length, !seq_length; lia).
    rewrite app_length, !map_length, !seq_length. replace (2 * h + 2 - (S h + S h))%nat with 0%nat by lia. reflexivity.
  Qed.
  Lemma ctor_col_right k : (k <= h)%nat -> tay k col (dxs xk i) = a k (S i).
  Proof.
    intros Hk. unfold col, ctor_col. fold zl. numR. set (dx := dxs xk i) in *.
    set (left := map (fun k => a k i) (seq 0 (S h))).
    set (t := taylor (left ++ repeat 0 (S h) ++ zl) dx h).
    set (r := map (fun k => (a k (S i) - nth k t 0) * npow dx k) (seq 0 (S h))).
    set (q := map (fun k => ksum (S h) (fun j => minv k j * nth j r 0) * (1 / (npow dx k * (dx * npow dx h)))) (seq 0 (S h))).
    assert (HLl : length left = S h) by (unfold left; rewrite map_length, seq_length; reflexivity).
    assert (HLq : length q = S h) by (unfold q; rewrite map_length, seq_length; reflexivity).
    assert (Ht : nth k t 0 = tay k (left ++ repeat 0 (S h) ++ zl) dx).
    { unfold t. rewrite taylor_tlist by (rewrite !app_length, repeat_length; lia).
      apply tlist_nth; auto. }
    assert (Hr : forall j, (j < S h)%nat -> nth j r 0 = (a j (S i) - nth j t 0) * dx ^ j).
    { intros j Hj. unfold r. rewrite map_seq_nth by lia. rewrite npow_R. reflexivity. }
    assert (Hpk : dx ^ k <> 0) by (apply pow_nonzero; auto).
    apply (Rmult_eq_reg_r (dx ^ k)); auto.
    rewrite tay_app, HLl.
    assert (Hq : tay k (repeat 0 (S h) ++ q ++ zl) dx =
                 tay k (repeat 0 (S h) ++ q) dx + tay k (repeat 0 (S h) ++ repeat 0 (S h) ++ zl) dx).
    { rewrite app_assoc, tay_app. f_equal. rewrite app_length, repeat_length, HLq.
      rewrite repeat_app, <- app_assoc. reflexivity. }
    assert (Ht' : tay k (left ++ repeat 0 (S h) ++ zl) dx = tay k left dx + tay k (repeat 0 (S h) ++ repeat 0 (S h) ++ zl) dx)
      by (rewrite tay_app, HLl; reflexivity).
    rewrite Hq.
    assert (Hs : tay k (repeat 0 (S h) ++ q) dx * dx ^ k = nth k r 0).
    { rewrite tay_shifted, HLq.
      rewrite (ksum_ext _ _ (fun j => ksum (S h) (fun m => two_sided h k j * minv j m * nth m r 0))).
      - rewrite ksum_swap. rewrite (ksum_ext _ _ (fun m => (if (k =? m)%nat then 1 else 0) * nth m r 0)).
        + apply (ksum_delta (S h) k (fun m => nth m r 0)). lia.
        + intros m Hm. rewrite <- (Hinv k m) by lia. rewrite Rmult_comm, <- ksum_scal.
          apply ksum_ext. intros; ring.
      - intros j Hj. unfold q. rewrite map_seq_nth by lia. rewrite !npow_R.
        rewrite two_sided_bin by lia. replace (S h + j)%nat with (h + 1 + j)%nat by lia.
        rewrite (ksum_ext _ (fun m => bin (h + 1 + j) k * minv j m * nth m r 0)
                   (fun m => bin (h + 1 + j) k * (minv j m * nth m r 0))) by (intros; ring).
        rewrite ksum_scal.
        replace (dx ^ (h + 1 + j)) with (dx ^ j * (dx * dx ^ h)) by (rewrite !pow_add; ring).
        rewrite ?(npow_R dx h). field. repeat split; auto; try (apply pow_nonzero; auto). }
    rewrite Hr, Ht, Ht' in Hs by lia. lra.
  Qed.
End Col.

(* ---- _rawinit with one more column than knots ---- *)
Lemma rawinit_short cl xk (c : carr R) :
  carr_wf c -> ck c = S (length xk) -> incr xk -> (1 <= length xk)%nat ->
  (cl = Per -> (2 <= length xk)%nat) ->
  exists r, rawinit cl xk c = Ok r /\ pw_wf r /\ pcl r = cl /\ pxk r = xk /\
    csh (pc r) = csh c /\ ck (pc r) = ck c /\ cn (pc r) = cn c /\
    (forall comp i, inb comp (csh c) -> (1 <= i < length xk)%nat -> ccol (pc r) comp i = ccol c comp i) /\
    (cl = Pw -> pc r = c).
Proof.
  intros Hc HK Hi Hn Hp. unfold rawinit. rewrite HK.
  destruct (Nat.eqb_spec (length xk) (S (length xk))); [lia|].
  destruct xk as [|x0 xt]; [cbn in Hn; lia|]. cbn [firstn app tl]. set (xk := x0 :: xt) in *.
  assert (Hf : nth 0 (x0 :: xk) 0 = nth 0 xk 0) by reflexivity.
  destruct cl.
  - eexists. split; [reflexivity|]. split.
    { split; unfold pxk; cbn [pc pxk0 pcl pper tl]; auto; discriminate. }
    cbn [pc pcl pxk pxk0 tl]. repeat split; auto.
  - specialize (Hp eq_refl). pose proof (cwf_n _ Hc).
    destruct (Nat.ltb_spec (length xk) 2); [lia|]. destruct (Nat.eqb_spec (cn c) 0); [lia|].
    eexists. split; [reflexivity|].
    assert (HE : forall comp i, (1 <= i < length xk)%nat -> ccol (per_fix xk c) comp i = ccol c comp i).
    { intros comp i Hl. cbn [per_fix ccol]. rewrite HK.
      destruct (Nat.eqb_spec i (S (length xk) - 1)); [lia|]. destruct (Nat.eqb_spec i 0); [lia|reflexivity]. }
    assert (HZ : forall comp, ccol (per_fix xk c) comp 0%nat = ccol c comp 1%nat).
    { intros comp. cbn [per_fix ccol]. rewrite HK.
      destruct (Nat.eqb_spec 0 (S (length xk) - 1)); [lia|]. reflexivity. }
    assert (HN : forall comp, ccol (per_fix xk c) comp (length xk) =
        pshift (ccol c comp (length xk - 1)%nat) (nth (length xk - 1) xk 0 - nth (length xk - 2) xk 0)).
    { intros comp. cbn [per_fix ccol]. rewrite HK.
      destruct (Nat.eqb_spec (length xk) (S (length xk) - 1)); [|lia].
      destruct (Nat.eqb_spec (S (length xk) - 2) 0); [lia|].
      replace (S (length xk) - 2)%nat with (length xk - 1)%nat by lia. reflexivity. }
    assert (CW : carr_wf (per_fix xk c)).
    { split; [apply Hc|]. cbn [per_fix cn csh ck]. rewrite HK. intros comp i Hb Hlt.
      change (length (ccol (per_fix xk c) comp i) = cn c).
      destruct (Nat.eq_dec i 0) as [->|]; [rewrite HZ; apply Hc; auto; lia|].
      destruct (Nat.eq_dec i (length xk)) as [->|].
      - assert (HL : length (ccol c comp (length xk - 1)%nat) = cn c) by (apply Hc; auto; lia).
        rewrite HN, pshift_length; auto. intros E. rewrite E in HL. cbn in HL; lia.
      - rewrite HE by lia. apply Hc; auto; lia. }
    split.
    { split; unfold pxk; cbn [pc pxk0 pcl pper tl]; auto.
      - intros _. split; [auto|]. split; [reflexivity|]. intros comp Hb.
        replace (ck (per_fix xk c) - 1)%nat with (length xk) by (cbn [per_fix ck]; lia).
        replace (ck (per_fix xk c) - 2)%nat with (length xk - 1)%nat by (cbn [per_fix ck]; lia).
        rewrite HZ, HN, !HE by lia. split; reflexivity. }
    cbn [pc pcl pxk pxk0 tl]. unfold pxk; cbn [pxk0 tl]. repeat split; auto. discriminate.
Qed.

(* ---- the whole constructor ---- *)
Lemma uniform_Forall (args : list (yarr R)) s n :
  Forall (fun a => ysh a = s /\ yn a = n) args -> uniform args = true.
Proof.
  intros H. destruct args as [|a r]; [reflexivity|]. inversion H as [|? ? [H1 H2] Hr]; subst. cbn.
  apply forallb_forall. intros b Hb. rewrite Forall_forall in Hr. destruct (Hr b Hb) as [E1 E2].
  unfold yshape_eqb. rewrite E1, E2, Nat.eqb_refl. destruct (list_eq_dec Nat.eq_dec (ysh a) (ysh a)); [reflexivity|congruence].
Qed.
Lemma incr_not_decr xk : incr xk -> (1 <? length xk)%nat && Rltb (nth (length xk - 1) xk 0) (nth 0 xk 0) = false.
Proof.
  intros H. destruct (Nat.ltb_spec 1 (length xk)) as [L|L]; [|reflexivity]. cbn [andb].
  destruct (Rltb_spec (nth (length xk - 1) xk 0) (nth 0 xk 0)) as [L'|]; [|reflexivity].
  assert (nth 0 xk 0 < nth (length xk - 1) xk 0) by (apply incr_lt; auto; lia). lra.
Qed.
Lemma size_snoc s n : size (s ++ [n]) = (size s * n)%nat.
Proof. induction s as [|a s IH]; cbn [app]; [cbn; lia|]. unfold size in *. cbn [fold_right] in *. rewrite IH. lia. Qed.

Definition yk (args : list (yarr R)) (comp : list nat) (k i : nat) : R :=
  yval (nth k args (YArr [] 0 (fun _ _ => 0))) comp i.

(* Taylor data at the ends of every finite interval *)
Definition ends_ok (r : pwpoly R) (args : list (yarr R)) (xk : list R) (h : nat) : Prop :=
  forall comp i k, inb comp (csh (pc r)) -> (S i < length xk)%nat -> (k <= h)%nat ->
    nth k (ccol (pc r) comp (S i)) 0 = yk args comp k i / INR (fact k) /\
    tay k (ccol (pc r) comp (S i)) (dxs xk i) = yk args comp k (S i) / INR (fact k).
Definition ext_ok (r : pwpoly R) (args : list (yarr R)) (xk : list R) (h : nat) : Prop :=
  forall comp i j, inb comp (csh (pc r)) ->
    (i = 0 /\ j = 0 \/ i = length xk /\ j = length xk - 1)%nat ->
    ccol (pc r) comp i = map (fun k => yk args comp k j / INR (fact k)) (seq 0 (S h))
                         ++ repeat 0 (cn (pc r) - S h).

Section Ctor.
  Variable inv : nat -> (nat -> nat -> R) -> (nat -> nat -> R).
  Hypothesis Hinv : inv_spec inv.
  Variables (cl : cls) (xk : list R) (args : list (yarr R)) (s : list nat).
  Hypothesis Hi : incr xk.
  Hypothesis Hn : (2 <= length xk)%nat.
  Hypothesis Hs : size s <> 0%nat.
  Hypothesis Ha : Forall (fun a => ysh a = s /\ yn a = length xk) args.
  Hypothesis Hne : args <> [].
  Let h := (length args - 1)%nat.

  Lemma yk_nth a0 comp k i : (k < length args)%nat -> yval (nth k args a0) comp i = yk args comp k i.
  Proof. intros H. unfold yk. f_equal. apply nth_indep; auto. Qed.
  Lemma dxs_pos i : (S i < length xk)%nat -> 0 < dxs xk i.
  Proof. intros H. unfold dxs. numR. specialize (Hi i H). lra. Qed.
  Lemma nfact_R k : @nfact R _ k = INR (fact k).
  Proof. unfold nfact. numR. apply IZR_zfact. Qed.

  (* the columns built by __init__ before _rawinit *)
  Let acoef (a0 : yarr R) comp k i := yval (nth k args a0) comp i * (1 / @nfact R _ k).
  Definition ctor_c (a0 : yarr R) (z : list nat -> option (nat -> R)) (ncoef : nat) : carr R :=
    CArr ncoef s (length xk + 1)
      (fun comp i =>
         if (i =? 0)%nat then map (fun k => acoef a0 comp k 0) (seq 0 (S h)) ++ repeat 0 (ncoef - S h)
         else if (i =? length xk)%nat
              then map (fun k => acoef a0 comp k (length xk - 1)) (seq 0 (S h)) ++ repeat 0 (ncoef - S h)
              else ctor_col h (inv (S h) (two_sided h)) xk (acoef a0 comp) (z comp) (i - 1)).
  Lemma acoef_eq a0 comp k i : (k <= h)%nat -> acoef a0 comp k i = yk args comp k i / INR (fact k).
  Proof.
    intros Hk. unfold acoef. rewrite nfact_R, yk_nth.
    - unfold Rdiv. ring.
    - unfold h in Hk. destruct args; [congruence|cbn in *; lia].
  Qed.
  Lemma ctor_c_ok a0 (zz : list nat -> nat -> R) (ev : bool) :
    let z comp := if ev then Some (zz comp) else None in
    let ncoef := (h + 1 + (h + 1) + (if ev then 1 else 0))%nat in
    exists r, rawinit cl xk (ctor_c a0 z ncoef) = Ok r /\ pw_wf r /\ pcl r = cl /\ pxk r = xk /\
      csh (pc r) = s /\ cn (pc r) = ncoef /\ ends_ok r args xk h /\
      (cl = Pw -> ext_ok r args xk h) /\
      (ev = true -> forall comp i, inb comp s -> (S i < length xk)%nat ->
         nth (2 * h + 2) (ccol (pc r) comp (S i)) 0 = zz comp i).
  Proof.
    intros z ncoef.
    assert (HI : right_inverse (S h) (two_sided h) (inv (S h) (two_sided h))) by (apply inv_two_sided; auto).
    destruct (rawinit_short cl xk (ctor_c a0 z ncoef)) as (r & E & W & R1 & R2 & R3 & R4 & R5 & R6 & R7); auto; try lia.
    - split; [cbn; unfold ncoef; lia|]. cbn [cn csh ck ccol ctor_c]. intros comp i Hb Hlt.
      destruct (Nat.eqb_spec i 0); [rewrite app_length, map_length, seq_length, repeat_length; unfold ncoef; lia|].
      destruct (Nat.eqb_spec i (length xk)); [rewrite app_length, map_length, seq_length, repeat_length; unfold ncoef; lia|].
      rewrite ctor_col_length. unfold z, ncoef. destruct ev; cbn; lia.
    - cbn. lia.
    - exists r. cbn [ctor_c csh cn] in R3, R5. split; auto. split; auto. split; auto. split; auto. split; auto. split; auto.
      assert (HC : forall comp i, inb comp s -> (S i < length xk)%nat ->
         ccol (pc r) comp (S i) = ctor_col h (inv (S h) (two_sided h)) xk (acoef a0 comp) (z comp) i).
      { intros comp i Hb Hl. rewrite R6 by (cbn; auto; lia). cbn [ctor_c ccol Nat.eqb].
        destruct (length xk) as [|m] eqn:EL; [lia|]. destruct (Nat.eqb_spec i m); [lia|].
        replace (S i - 1)%nat with i by lia. reflexivity. }
      split; [|split].
      + intros comp i k Hb Hl Hk. rewrite R3 in Hb. rewrite HC by auto. split.
        * rewrite ctor_col_left by auto. apply acoef_eq; auto.
        * rewrite ctor_col_right; auto; [apply acoef_eq; auto|]. pose proof (dxs_pos i Hl). lra.
      + intros HP comp i j Hb Hij. rewrite R5, (R7 HP). cbn [ctor_c ccol].
        assert (HM : forall j, map (fun k => acoef a0 comp k j) (seq 0 (S h)) =
                               map (fun k => yk args comp k j / INR (fact k)) (seq 0 (S h))).
        { intros j'. apply map_ext_in. intros k Hk. apply in_seq in Hk. apply acoef_eq. lia. }
        destruct Hij as [[-> ->]|[-> ->]].
        * cbn [Nat.eqb]. rewrite HM. reflexivity.
        * destruct (Nat.eqb_spec (length xk) 0); [lia|]. rewrite Nat.eqb_refl, HM. reflexivity.
      + intros Hev comp i Hb Hl. rewrite HC by auto. apply (ctor_col_top h _ xk (acoef a0 comp) (z comp) i (zz comp)).
        unfold z. rewrite Hev. reflexivity.
  Qed.

End Ctor.

Section Ctor2.
  Variable inv : nat -> (nat -> nat -> R) -> (nat -> nat -> R).
  Hypothesis Hinv : inv_spec inv.

  Lemma ctor_odd_ok cl xk args s : incr xk -> (2 <= length xk)%nat -> size s <> 0%nat ->
    Forall (fun a => ysh a = s /\ yn a = length xk) args -> args <> [] ->
    let h := (length args - 1)%nat in
    exists r, ctor inv cl xk args = Ok r /\ pw_wf r /\ pcl r = cl /\ pxk r = xk /\
      csh (pc r) = s /\ cn (pc r) = (2 * h + 2)%nat /\ ends_ok r args xk h /\
      (cl = Pw -> ext_ok r args xk h).
  Proof.
    intros Hi Hn Hs Ha Hne h. unfold ctor. numR. rewrite (incr_not_decr xk Hi). cbn [andb].
    destruct (rev args) as [|argz rargs] eqn:ER.
    { apply (f_equal (@length _)) in ER. rewrite rev_length in ER. destruct args; [congruence|discriminate]. }
    assert (Hz : In argz args) by (apply in_rev; rewrite ER; left; reflexivity).
    pose proof Ha as Ha'. rewrite Forall_forall in Ha'. destruct (Ha' argz Hz) as [Z1 Z2].
    destruct (Nat.eqb_spec (yn argz + 1) (length xk)); [lia|].
    rewrite (uniform_Forall args s (length xk)) by auto. cbn [negb].
    destruct args as [|a0 ar]; [congruence|]. destruct (Ha' a0 (or_introl eq_refl)) as [A1 A2].
    rewrite A1, A2, size_snoc.
    destruct (Nat.eqb_spec (length xk) 0); [lia|].
    destruct (Nat.eqb_spec (size s * length xk) 0); [nia|]. cbn [orb].
    destruct (Nat.eqb_spec (length xk) (length xk + 1)); [lia|]. rewrite Nat.eqb_refl. cbn [negb].
    destruct (Nat.ltb_spec (length xk) 2); [lia|]. rewrite andb_false_l. cbv iota beta.
    destruct (ctor_c_ok inv Hinv cl xk (a0 :: ar) s Hi Hn Hs Ha Hne a0 (fun _ _ => 0) false) as (r & E & W & R1 & R2 & R3 & R4 & R5 & R6 & R7).
    exists r. split; [exact E|]. split; auto. split; auto. split; auto. split; auto. split; [lia|]. split; auto.
  Qed.

  Lemma ctor_even_ok cl xk args s (argz : yarr R) : incr xk -> (2 <= length xk)%nat -> size s <> 0%nat ->
    Forall (fun a => ysh a = s /\ yn a = length xk) args -> args <> [] ->
    let h := (length args - 1)%nat in
    ysh argz = s -> (yn argz + 1 = length xk)%nat ->
    exists r, ctor inv cl xk (args ++ [argz]) = Ok r /\ pw_wf r /\ pcl r = cl /\ pxk r = xk /\
      csh (pc r) = s /\ cn (pc r) = (2 * h + 3)%nat /\ ends_ok r args xk h /\
      (cl = Pw -> ext_ok r args xk h) /\
      (forall comp i, inb comp s -> (S i < length xk)%nat ->
         nth (2 * h + 2) (ccol (pc r) comp (S i)) 0 = yval argz comp i / IZR (zprod (h + 1) h)).
  Proof.
    intros Hi Hn Hs Ha Hne h Z1 Z2. unfold ctor. numR. rewrite (incr_not_decr xk Hi). cbn [andb].
    rewrite rev_app_distr. cbn [rev app].
    destruct (Nat.eqb_spec (yn argz + 1) (length xk)) as [_|]; [|lia].
    destruct (rev args) as [|b rb] eqn:ER.
    { apply (f_equal (@length _)) in ER. rewrite rev_length in ER. destruct args; [congruence|discriminate]. }
    rewrite <- ER, rev_involutive.
    rewrite (uniform_Forall args s (length xk)) by auto. cbn [negb].
    pose proof Ha as Ha'. rewrite Forall_forall in Ha'.
    destruct args as [|a0 ar]; [congruence|]. destruct (Ha' a0 (or_introl eq_refl)) as [A1 A2].
    rewrite A1, A2, size_snoc.
    destruct (Nat.eqb_spec (length xk) 0); [lia|].
    destruct (Nat.eqb_spec (size s * length xk) 0); [nia|]. cbn [orb].
    destruct (Nat.eqb_spec (length xk) (length xk + 1)); [lia|]. rewrite Nat.eqb_refl. cbn [negb].
    destruct (Nat.ltb_spec (length xk) 2); [lia|]. rewrite Z1.
    destruct (list_eq_dec Nat.eq_dec s s); [|congruence]. cbn [negb andb]. cbv iota beta.
    destruct (ctor_c_ok inv Hinv cl xk (a0 :: ar) s Hi Hn Hs Ha Hne a0 (fun comp i => yval argz comp i * (1 / (1 * IZR (zprod (h + 1) h)))) true)
      as (r & E & W & R1 & R2 & R3 & R4 & R5 & R6 & R7).
    exists r. split; [exact E|]. split; auto. split; auto. split; auto. split; auto. split; [lia|]. split; auto.
    split; auto. intros comp i Hb Hl. rewrite (R7 eq_refl) by auto. unfold Rdiv. rewrite !Rmult_1_l. reflexivity.
  Qed.
End Ctor2.

(* ---- smoothness from matching Taylor data ---- *)
Lemma dpl_glue f F G x l e : 0 < e ->
  (forall t, x - e < t <= x -> f t = F t) -> (forall t, x < t < x + e -> f t = G t) ->
  F x = G x -> derivable_pt_lim F x l -> derivable_pt_lim G x l -> derivable_pt_lim f x l.
Proof.
  intros He EF EG E HF HG eps Heps.
  destruct (HF eps Heps) as (d1 & D1). destruct (HG eps Heps) as (d2 & D2).
  assert (Hd : 0 < Rmin (Rmin d1 d2) e) by (repeat apply Rmin_glb_lt; auto; apply cond_pos).
  exists (mkposreal _ Hd). intros u Hu Hlt. cbn in Hlt.
  assert (L1 : Rabs u < d1) by (eapply Rlt_le_trans; [exact Hlt|]; eapply Rle_trans; [apply Rmin_l|apply Rmin_l]).
  assert (L2 : Rabs u < d2) by (eapply Rlt_le_trans; [exact Hlt|]; eapply Rle_trans; [apply Rmin_l|apply Rmin_r]).
  assert (L3 : Rabs u < e) by (eapply Rlt_le_trans; [exact Hlt|]; apply Rmin_r).
  apply Rabs_def2 in L3. rewrite (EF x) by lra.
  destruct (Rle_lt_dec u 0).
  - rewrite EF by lra. apply D1; auto.
  - rewrite EG by lra. rewrite E. apply D2; auto.
Qed.
(* derivative of the k-th derivative of a polynomial in x - a *)
Lemma dpl_tay k c a x :
  derivable_pt_lim (fun t => INR (fact k) * tay k c (t - a)) x (INR (fact (S k)) * tay (S k) c (x - a)).
Proof.
  pose proof (nderiv_peval_shift (S k) c a) as (g & H1 & H2).
  pose proof (nderiv_peval_shift k c a) as H3.
  apply (dpl_ext g); [|apply H2]. intros t. apply (nderiv_unique k _ _ _ H1 H3).
Qed.
Lemma cont_tay k c a x : continuity_pt (fun t => INR (fact k) * tay k c (t - a)) x.
Proof. apply derivable_continuous_pt. eexists. apply dpl_tay. Qed.

(* k-th derivative as __call__ finds it *)
Definition pder (p : pwpoly R) (comp : list nat) (k : nat) (x : R) : R :=
  let i := ssearch (pxk p) x in INR (fact k) * tay k (ccol (pc p) comp i) (x - nth i (pxk0 p) 0).
Lemma pder_piece p comp k i x : incr (pxk p) -> in_piece (pxk p) i x ->
  pder p comp k x = INR (fact k) * tay k (ccol (pc p) comp i) (x - nth i (pxk0 p) 0).
Proof. intros H1 H2. unfold pder. rewrite (ssearch_unique _ i); auto. Qed.
Lemma pder_0 p comp x : pder p comp 0 x = base p comp x.
Proof. unfold pder, base. cbv zeta. rewrite tay_0. cbn. ring. Qed.
Section Smooth.
  Variables (p : pwpoly R) (comp : list nat).
  Hypothesis Hinc : incr (pxk p).
  Lemma pder_cont k x :
    (forall j, (j < length (pxk p))%nat -> x = nth j (pxk p) 0 -> match_at p comp j k) ->
    continuity_pt (pder p comp k) x.
  Proof.
    intros Hm. destruct (is_knot_dec (pxk p) x) as [(j & Hj & ->)|N].
    - specialize (Hm j Hj eq_refl). unfold match_at in Hm. set (x := nth j (pxk p) 0) in *.
      destruct (left_of_knot _ j Hinc Hj) as (e1 & He1 & L).
      destruct (right_of_knot _ j Hinc Hj) as (e2 & He2 & Rr). fold x in L, Rr.
      apply (cont_glue _ (fun t => INR (fact k) * tay k (ccol (pc p) comp j) (t - nth j (pxk0 p) 0))
                       (fun t => INR (fact k) * tay k (ccol (pc p) comp (S j)) (t - nth (S j) (pxk0 p) 0)) x (Rmin e1 e2)).
      + apply Rmin_glb_lt; auto.
      + intros t Ht. apply pder_piece; auto. apply L. pose proof (Rmin_l e1 e2). lra.
      + intros t Ht. apply pder_piece; auto. apply Rr. pose proof (Rmin_r e1 e2). lra.
      + cbv beta. rewrite Hm, pxk0_S. fold x. replace (x - x) with 0 by ring. rewrite tay_at_0. reflexivity.
      + apply cont_tay.
      + apply cont_tay.
    - assert (Hi : inside (pxk p) (ssearch (pxk p) x) x) by (apply piece_inside; auto; apply ssearch_piece; auto).
      destruct (inside_open _ _ _ Hi) as (e & He & Ho).
      eapply (cont_local _ _ x e He); [|apply (cont_tay k (ccol (pc p) comp (ssearch (pxk p) x)) (nth (ssearch (pxk p) x) (pxk0 p) 0))].
      intros t Ht. apply pder_piece; auto. apply inside_piece; auto.
  Qed.
  Lemma pder_dpl k x :
    (forall j, (j < length (pxk p))%nat -> x = nth j (pxk p) 0 -> match_at p comp j k /\ match_at p comp j (S k)) ->
    derivable_pt_lim (pder p comp k) x (pder p comp (S k) x).
  Proof.
    intros Hm. destruct (is_knot_dec (pxk p) x) as [(j & Hj & ->)|N].
    - destruct (Hm j Hj eq_refl) as [M1 M2]. unfold match_at in M1, M2. set (x := nth j (pxk p) 0) in *.
      destruct (left_of_knot _ j Hinc Hj) as (e1 & He1 & L).
      destruct (right_of_knot _ j Hinc Hj) as (e2 & He2 & Rr). fold x in L, Rr.
      rewrite (pder_piece p comp (S k) j x) by (auto; apply L; lra).
      apply (dpl_glue _ (fun t => INR (fact k) * tay k (ccol (pc p) comp j) (t - nth j (pxk0 p) 0))
                       (fun t => INR (fact k) * tay k (ccol (pc p) comp (S j)) (t - nth (S j) (pxk0 p) 0)) x _ (Rmin e1 e2)).
      + apply Rmin_glb_lt; auto.
      + intros t Ht. apply pder_piece; auto. apply L. pose proof (Rmin_l e1 e2). lra.
      + intros t Ht. apply pder_piece; auto. apply Rr. pose proof (Rmin_r e1 e2). lra.
      + cbv beta. rewrite M1, pxk0_S. fold x. replace (x - x) with 0 by ring. rewrite tay_at_0. reflexivity.
      + apply dpl_tay.
      + pose proof (dpl_tay k (ccol (pc p) comp (S j)) (nth (S j) (pxk0 p) 0) x) as D.
        rewrite pxk0_S in *. fold x in D |- *. replace (x - x) with 0 in D by ring. rewrite tay_at_0, <- M2 in D. exact D.
    - assert (Hi : inside (pxk p) (ssearch (pxk p) x) x) by (apply piece_inside; auto; apply ssearch_piece; auto).
      destruct (inside_open _ _ _ Hi) as (e & He & Ho).
      assert (Hx : pder p comp (S k) x = INR (fact (S k)) * tay (S k) (ccol (pc p) comp (ssearch (pxk p) x)) (x - nth (ssearch (pxk p) x) (pxk0 p) 0)) by reflexivity.
      rewrite Hx.
      pose proof (dpl_tay k (ccol (pc p) comp (ssearch (pxk p) x)) (nth (ssearch (pxk p) x) (pxk0 p) 0) x) as D.
      intros eps Heps. destruct (D eps Heps) as (d & Hd).
      assert (Hm' : 0 < Rmin d e) by (apply Rmin_glb_lt; auto; apply cond_pos).
      exists (mkposreal _ Hm'). cbn [pos]. intros u Hu1 Hu2.
      rewrite (pder_piece p comp k (ssearch (pxk p) x) (x + u)), (pder_piece p comp k (ssearch (pxk p) x) x); auto.
      + apply Hd; auto. eapply Rlt_le_trans; [exact Hu2|apply Rmin_l].
      + apply inside_piece; auto.
      + apply inside_piece, Ho. replace (x + u - x) with u by ring. eapply Rlt_le_trans; [exact Hu2|apply Rmin_r].
  Qed.
End Smooth.

(* the Taylor data of ends_ok and ext_ok match at every knot *)
Lemma ctor_match r args xk h comp : pw_wf r -> pxk r = xk -> (2 <= length xk)%nat ->
  (S h <= cn (pc r))%nat -> inb comp (csh (pc r)) ->
  ends_ok r args xk h -> ext_ok r args xk h ->
  forall j k, (j < length xk)%nat -> (k <= h)%nat ->
    match_at r comp j k /\ pder r comp k (nth j xk 0) = yk args comp k j.
Proof.
  intros W Hx Hn Hcn Hb He Hext j k Hj Hk.
  assert (HF : INR (fact k) <> 0) by apply INR_fact_neq_0.
  assert (Hleft : tay k (ccol (pc r) comp j) (nth j (pxk r) 0 - nth j (pxk0 r) 0) = yk args comp k j / INR (fact k)).
  { destruct j as [|j].
    - rewrite (wf_first r W). replace (nth 0 (pxk r) 0 - nth 0 (pxk r) 0) with 0 by ring.
      rewrite tay_at_0, (Hext comp 0%nat 0%nat) by auto. rewrite app_nth1 by (rewrite map_length, seq_length; lia).
      rewrite map_seq_nth by lia. reflexivity.
    - rewrite pxk0_S, Hx. apply (He comp j k Hb Hj Hk). }
  split.
  - unfold match_at. rewrite Hleft. destruct (Nat.eq_dec (S j) (length xk)) as [E|N].
    + rewrite (Hext comp (S j) (length xk - 1)%nat) by (auto; right; auto).
      rewrite app_nth1 by (rewrite map_length, seq_length; lia). rewrite map_seq_nth by lia.
      replace (length xk - 1)%nat with j by lia. reflexivity.
    + symmetry. apply (He comp j k Hb); auto; lia.
  - rewrite (pder_piece r comp k j).
    + rewrite <- Hx, Hleft. field; auto.
    + apply W.
    + rewrite Hx. apply in_piece_knot; auto. rewrite <- Hx. apply W.
Qed.
