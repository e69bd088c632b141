(* Lemmas about the spline model: binomial rows, banded equations, boundary loops. *)
From Coq Require Import List Arith ZArith Lia Bool Reals Lra.
From Verif Require Import Num PyBase NdArray Poly SpecPoly PolyProofs PwPoly PwBase PwCtor RSum
  SolvePer SolveProofs Gauss PropsSolve Spline.
Import ListNotations.
Local Open Scope R_scope.

(* --- binomial coefficients ---------------------------------------------------- *)
Fixpoint binom (m k : nat) : nat :=
  match k, m with
  | O, _ => 1
  | S k', O => 0
  | S k', S m' => binom m' k' + binom m' (S k')
  end%nat.
Lemma binom_0 m : binom m 0 = 1%nat.
Proof. destruct m; reflexivity. Qed.
Lemma binom_SS m k : binom (S m) (S k) = (binom m k + binom m (S k))%nat.
Proof. reflexivity. Qed.
Lemma binom_gt m k : (m < k)%nat -> binom m k = 0%nat.
Proof.
  revert k; induction m as [|m IH]; intros [|k] H; try lia; [reflexivity|].
  rewrite binom_SS, !IH by lia. reflexivity.
Qed.
Lemma binom_diag m : binom m m = 1%nat.
Proof. induction m as [|m IH]; [reflexivity|]. rewrite binom_SS, IH, binom_gt by lia. reflexivity. Qed.
Lemma binom_sym a b : binom (a + b) a = binom (a + b) b.
Proof.
  revert b; induction a as [|a IHa]; intros b.
  - cbn [Nat.add]. rewrite binom_0, binom_diag. reflexivity.
  - induction b as [|b IHb].
    + rewrite Nat.add_0_r, binom_0, binom_diag. reflexivity.
    + replace (S a + S b)%nat with (S (a + S b)) in * by lia. rewrite !binom_SS.
      rewrite IHa. replace (a + S b)%nat with (S a + b)%nat by lia. rewrite IHb. lia.
Qed.
Lemma bin_binom m k : bin m k = INR (binom m k).
Proof.
  unfold bin. revert k; induction m as [|m IH]; intros k.
  - destruct k; cbn; ring.
  - cbn [repeat app tay]. destruct k.
    + rewrite IH, !binom_0. cbn. ring.
    + rewrite !IH, binom_SS, plus_INR. ring.
Qed.
(* hockey stick *)
Lemma binom_sum i m : rsum (S m) (fun t => INR (binom (i + t) i)) = INR (binom (i + m + 1) (S i)).
Proof.
  induction m as [|m IH].
  - cbn [rsum]. rewrite !Nat.add_0_r, Nat.add_1_r, !binom_diag. cbn; lra.
  - cbn [rsum] in *. rewrite IH. replace (i + S m + 1)%nat with (S (i + S m)) by lia. rewrite binom_SS, plus_INR.
    replace (i + m + 1)%nat with (i + S m)%nat by lia. ring.
Qed.

Lemma cumsum_from_len (a : R) l : length (cumsum_from a l) = length l.
Proof. revert a; induction l as [|b l IH]; intros a; cbn; auto. Qed.
Lemma cumsum_len (l : list R) : length (cumsum l) = length l.
Proof. destruct l; cbn; [reflexivity|]. rewrite cumsum_from_len. reflexivity. Qed.
Lemma nth_cumsum_from a l m : (m < length l)%nat ->
  nth m (cumsum_from a l) 0 = a + rsum (S m) (fun t => nth t l 0).
Proof.
  revert a m; induction l as [|b l IH]; intros a m H; cbn in H; [lia|]. cbn [cumsum_from]. numR.
  destruct m; [cbn; lra|]. cbn [nth]. rewrite IH by lia. rewrite (rsum_S_l (S m)). cbn [nth]. lra.
Qed.
Lemma nth_cumsum (l : list R) m : (m < length l)%nat -> nth m (cumsum l) 0 = rsum (S m) (fun t => nth t l 0).
Proof.
  destruct l as [|b l]; cbn [length]; intros H; [lia|]. cbn [cumsum]. destruct m; [cbn; lra|].
  cbn [nth]. rewrite nth_cumsum_from by lia. rewrite (rsum_S_l (S m)). reflexivity.
Qed.
Definition binrow (deg i : nat) : list R := map (fun j => INR (binom j i)) (seq 0 (deg + 1)).
Lemma binrow_len deg i : length (binrow deg i) = (deg + 1)%nat.
Proof. unfold binrow. rewrite map_length, seq_length. reflexivity. Qed.
Lemma nth_binrow deg i j : (j <= deg)%nat -> nth j (binrow deg i) 0 = INR (binom j i).
Proof. intros H. unfold binrow. apply (map_seq_nth (fun j => INR (binom j i))). lia. Qed.
Lemma nth_removelast {A} (l : list A) i d : (S i < length l)%nat -> nth i (removelast l) d = nth i l d.
Proof.
  intros H. destruct (exists_last (l := l)) as (l' & a & ->); [destruct l; cbn in H; [lia|discriminate]|].
  rewrite removelast_last. rewrite app_length in H. cbn in H. rewrite app_nth1 by lia. reflexivity.
Qed.
Lemma removelast_len {A} (l : list A) : length (removelast l) = (length l - 1)%nat.
Proof.
  destruct l as [|a l]; [reflexivity|].
  destruct (exists_last (l := a :: l)) as (l' & b & ->); [discriminate|]. rewrite removelast_last, app_length. cbn; lia.
Qed.
Lemma nth_skipn' {A} (l : list A) i j d : nth j (skipn i l) d = nth (i + j) l d.
Proof. revert l; induction i as [|i IH]; intros l; [reflexivity|]. destruct l; cbn [skipn]; [destruct j; reflexivity|]. apply IH. Qed.
Lemma bico_step deg i :
  repeat 0 (Nat.min (i + 1) (length (binrow deg i))) ++ cumsum (skipn i (removelast (binrow deg i))) = binrow deg (S i).
Proof.
  assert (L : length (skipn i (removelast (binrow deg i))) = (deg - i)%nat).
  { rewrite skipn_length, removelast_len, binrow_len. lia. }
  apply list_eq_nth.
  - rewrite app_length, repeat_length, cumsum_len, L, !binrow_len. lia.
  - intros j Hj. rewrite app_length, repeat_length, cumsum_len, L, binrow_len in Hj. numR.
    rewrite nth_binrow by lia. destruct (Nat.lt_ge_cases j (Nat.min (i + 1) (length (binrow deg i)))) as [H|H].
    + rewrite app_nth1 by (rewrite repeat_length; auto). rewrite binrow_len in H.
      rewrite nth_repeat. rewrite binom_gt by lia. reflexivity.
    + rewrite binrow_len in *. rewrite app_nth2 by (rewrite repeat_length; lia). rewrite repeat_length.
      rewrite nth_cumsum by lia.
      rewrite (rsum_ext _ _ (fun t => INR (binom (i + t) i))).
      * rewrite binom_sum. do 2 f_equal. lia.
      * intros t Ht. rewrite nth_skipn', nth_removelast by (rewrite binrow_len; lia). apply nth_binrow. lia.
Qed.
Lemma nth_bico_rows deg m i k : (k < m)%nat -> nth k (bico_rows i m (binrow deg i)) [] = binrow deg (i + S k).
Proof.
  revert i k; induction m as [|m IH]; intros i k H; [lia|]. cbn [bico_rows]. numR. rewrite bico_step.
  destruct k; cbn [nth]; [f_equal; lia|]. rewrite IH by lia. f_equal; lia.
Qed.
Lemma bico_len deg nc : length (@bico R _ deg nc) = S nc.
Proof.
  unfold bico. cbn [length]. f_equal. generalize (repeat (n1 : R) (deg + 1)). generalize 0%nat.
  induction nc as [|m IH]; intros i l; cbn; auto.
Qed.
Lemma nth_bico deg nc i : (i <= nc)%nat -> nth i (@bico R _ deg nc) [] = binrow deg i.
Proof.
  intros H. unfold bico. numR.
  assert (E : repeat 1 (deg + 1) = binrow deg 0).
  { apply list_eq_nth; rewrite ?repeat_length, ?binrow_len; auto. intros j Hj.
    numR. rewrite nth_binrow by lia. rewrite binom_0. rewrite (nth_indep _ 0 1) by (rewrite repeat_length; auto).
    rewrite nth_repeat. reflexivity. }
  rewrite E. destruct i; [reflexivity|]. cbn [nth]. apply nth_bico_rows. lia.
Qed.
Lemma bc_row_len n m : (m < n)%nat -> length (@bc_row R _ n m) = n.
Proof. intros H. unfold bc_row. rewrite nth_bico by lia. unfold binrow. rewrite Nat.add_1_r. cbn. rewrite map_length, seq_length. reflexivity. Qed.
Lemma nth_bc_row n m t : (m < n)%nat -> (t < n)%nat -> nth t (@bc_row R _ n m) 0 = INR (binom (S t) m).
Proof.
  intros H Ht. unfold bc_row. rewrite nth_bico by lia. rewrite <- (nth_binrow n m (S t)) by lia.
  destruct (binrow n m) eqn:E; [|reflexivity]. destruct t; reflexivity.
Qed.
Lemma nth_bc_row0 n m t : (m < n)%nat -> (t < n)%nat ->
  nth t (@bc_row0 R _ n m) 0 = if ((m =? 0) && (t =? n - 1))%nat then 0 else INR (binom (S t) m).
Proof.
  intros H Ht. unfold bc_row0. destruct (Nat.eqb_spec m 0) as [->|]; cbn [andb].
  - destruct (Nat.eqb_spec t (n - 1)) as [->|].
    + rewrite nth_upd_eq by (rewrite bc_row_len; lia). reflexivity.
    + rewrite nth_upd_neq by lia. apply nth_bc_row; lia.
  - apply nth_bc_row; auto.
Qed.

(* --- applying the banded and the cyclic matrix along antidiagonals ---------------- *)
(* the sum of ab[r, s-r] v[s-r] over the rows *)
Definition adsum (n nun : nat) (f : nat -> nat -> R) (v : nat -> R) (s : nat) : R :=
  rsum (n + 1) (fun r => if ((r <=? s) && (s - r <? nun))%nat then f r (s - r)%nat * v (s - r)%nat else 0).
Lemma band_adsum l u (ab : arr2 R) v i : (i < nc ab)%nat ->
  rsum (nc ab) (fun j => band l u ab i j * v j) = adsum (l + u) (nc ab) (at2 ab) v (u + i).
Proof.
  intros Hi. unfold adsum.
  rewrite (rsum_ext (l + u + 1) _ (fun r => rsum (nc ab) (fun j => if (j =? u + i - r)%nat then (if (r <=? u + i)%nat then at2 ab r j * v j else 0) else 0))).
  - rewrite rsum_swap. apply rsum_ext. intros j Hj. unfold band.
    destruct (Nat.leb_spec j (i + u)); cbn [andb].
    + destruct (Nat.leb_spec i (j + l)).
      * rewrite (rsum_single _ (u + i - j)).
        -- destruct (Nat.eqb_spec j (u + i - (u + i - j))); [|lia]. destruct (Nat.leb_spec (u + i - j) (u + i)); [reflexivity|lia].
        -- lia.
        -- intros r Hr Hne. destruct (Nat.eqb_spec j (u + i - r)); auto. destruct (Nat.leb_spec r (u + i)); auto. lia.
      * rewrite rsum_zero; [ring|]. intros r Hr. destruct (Nat.eqb_spec j (u + i - r)); auto. destruct (Nat.leb_spec r (u + i)); auto. lia.
    + rewrite rsum_zero; [ring|]. intros r Hr. destruct (Nat.eqb_spec j (u + i - r)); auto. destruct (Nat.leb_spec r (u + i)); auto. lia.
  - intros r Hr. rewrite (rsum_delta (nc ab) (u + i - r) (fun j => if (r <=? u + i)%nat then at2 ab r j * v j else 0)).
    destruct (Nat.leb_spec r (u + i)); cbn [andb]; destruct (Nat.ltb_spec (u + i - r) (nc ab)); auto.
Qed.
Lemma cyc_adsum l u (ab : arr2 R) v i : (i < nc ab)%nat -> (l <= nc ab)%nat -> (u <= nc ab)%nat ->
  rsum (nc ab) (fun j => cyc l u ab i j * v j) =
  rsum (l + u + 1) (fun r => let j := ((u + i + nc ab - r) mod nc ab)%nat in at2 ab r j * v j).
Proof.
  intros Hi Hl Hu. set (n := nc ab) in *. unfold cyc. fold n.
  rewrite (rsum_ext n _ (fun j => rsum (l + u + 1) (fun r => (if ((r + j + n - u) mod n =? i)%nat then at2 ab r j else 0) * v j))).
  2:{ intros j Hj. rewrite rsum_scal_r. reflexivity. }
  rewrite rsum_swap. apply rsum_ext. intros r Hr. cbv zeta.
  assert (Hm : ((u + i + n - r) mod n < n)%nat) by (apply Nat.mod_upper_bound; lia).
  rewrite (rsum_single n ((u + i + n - r) mod n)); auto.
  - assert (E : ((r + (u + i + n - r) mod n + n - u) mod n = i)%nat); [|rewrite E, Nat.eqb_refl; reflexivity].
    replace (r + (u + i + n - r) mod n + n - u)%nat with ((u + i + n - r) mod n + (r + n - u))%nat by lia.
    rewrite Nat.add_mod_idemp_l by lia. replace (u + i + n - r + (r + n - u))%nat with (i + 2 * n)%nat by lia.
    rewrite Nat.mod_add by lia. apply Nat.mod_small; auto.
  - intros j Hj Hne. destruct (Nat.eqb_spec ((r + j + n - u) mod n) i) as [E|]; [|ring]. exfalso. apply Hne. rewrite <- E.
    replace (u + (r + j + n - u) mod n + n - r)%nat with ((r + j + n - u) mod n + (u + n - r))%nat by lia.
    rewrite Nat.add_mod_idemp_l by lia. replace (r + j + n - u + (u + n - r))%nat with (j + 2 * n)%nat by lia.
    rewrite Nat.mod_add by lia. symmetry. apply Nat.mod_small; auto.
Qed.

(* --- strided slices with a negative step ---------------------------------------- *)
Lemma slice_down len sa sb (a b : Z) (d cnt : nat) : (0 < d)%nat -> (0 < cnt)%nat ->
  slice_adjust (Z.of_nat len) (- Z.of_nat d) sa true = a ->
  slice_adjust (Z.of_nat len) (- Z.of_nat d) sb false = b ->
  (b < a - (Z.of_nat cnt - 1) * Z.of_nat d)%Z -> (a - Z.of_nat cnt * Z.of_nat d <= b)%Z ->
  slice_indices len sa sb (- Z.of_nat d) = map (fun t => Z.to_nat (a - Z.of_nat t * Z.of_nat d)) (seq 0 cnt).
Proof.
  intros Hd Hc Ea Eb H1 H2. unfold slice_indices. rewrite Ea, Eb. unfold slice_len.
  destruct (Z.ltb_spec (- Z.of_nat d) 0); [|lia]. destruct (Z.ltb_spec b a); [|nia].
  replace (Z.to_nat _) with cnt.
  - apply map_ext. intros t. f_equal. lia.
  - assert (E : ((a - b - 1) / (- - Z.of_nat d) = Z.of_nat cnt - 1)%Z).
    { symmetry. apply (Z.div_unique _ _ _ (a - b - 1 - (Z.of_nat cnt - 1) * Z.of_nat d)%Z); nia. }
    rewrite E. lia.
Qed.

(* --- the boundary loops ------------------------------------------------------------ *)
(* the specified conditions with their positions *)
Fixpoint specs {A} (i : nat) (l : list (option A)) : list (nat * A) :=
  match l with
  | [] => []
  | None :: l => specs (S i) l
  | Some b :: l => (i, b) :: specs (S i) l
  end.
Lemma specs_len {A} i (l : list (option A)) : length (specs i l) = count_some l.
Proof. revert i; induction l as [|[a|] l IH]; intros i; cbn; auto. Qed.
Lemma count_le {A} (l : list (option A)) : (count_some l <= length l)%nat.
Proof. induction l as [|[a|] l IH]; cbn; unfold count_some in *; cbn; lia. Qed.
Lemma specs_app {A} i (l m : list (option A)) : specs i (l ++ m) = specs i l ++ specs (i + length l) m.
Proof.
  revert i; induction l as [|[a|] l IH]; intros i; cbn.
  - rewrite Nat.add_0_r; reflexivity.
  - rewrite IH. do 3 f_equal. lia.
  - rewrite IH. do 2 f_equal. lia.
Qed.
Lemma specs_bound {A} i (l : list (option A)) t d : (t < length (specs i l))%nat ->
  (i + t <= fst (nth t (specs i l) d))%nat /\ (fst (nth t (specs i l) d) + (length (specs i l) - t) <= i + length l)%nat.
Proof.
  revert i t; induction l as [|[a|] l IH]; intros i t H; cbn in H |- *; [lia| |].
  - destruct t; cbn [fst nth].
    + split; [lia|]. assert (length (specs (S i) l) <= length l)%nat; [|lia].
      rewrite specs_len. apply count_le.
    + destruct (IH (S i) t) as [A1 A2]; [lia|]. cbn [length]. lia.
  - destruct (IH (S i) t) as [A1 A2]; [lia|]. lia.
Qed.
Definition bdef : nat * nd R := (0%nat, scalar 0).
(* boundary value t at component c, scaled *)
Definition bval (l : list (nat * nd R)) (d : R) (t c : nat) : R :=
  bget (snd (nth t l bdef)) [c] * dxpow d (fst (nth t l bdef)).
Definition bfit (nc : nat) (l : list (option (nd R))) : Prop := forall b, In (Some b) l -> bto (shp b) [nc] = true.

Lemma divmod_flat nun r j : (j < nun)%nat -> ((r * nun + j) / nun = r /\ (r * nun + j) mod nun = j)%nat.
Proof.
  intros H. split.
  - rewrite Nat.div_add_l by lia. rewrite Nat.div_small by auto. lia.
  - rewrite Nat.add_comm, Nat.mod_add by lia. apply Nat.mod_small; auto.
Qed.

Lemma hi_write n nun i k (ab : nat -> R) : (2 <= n)%nat -> (n <= nun)%nat -> (k <= n - 2)%nat -> (i <= n - 2)%nat ->
  exists ab',
    fset ((n + 1) * nun) ab (Some (Z.of_nat k - Z.of_nat n)%Z) (Some ((Z.of_nat k - Z.of_nat n) * Z.of_nat nun)%Z)
      (1 - Z.of_nat nun)%Z (skipn k (bc_row n (i + 1))) = Ok ab' /\
    forall r j, (r <= n)%nat -> (j < nun)%nat ->
      ab' (r * nun + j)%nat = if (r + j =? nun + k)%nat then INR (binom (j - (nun - n) + 1) (i + 1)) else ab (r * nun + j)%nat.
Proof.
  intros Hn Hun Hk Hi. set (P0 := ((n + 1) * nun + k - n)%nat).
  assert (EI : slice_indices ((n + 1) * nun) (Some (Z.of_nat k - Z.of_nat n)%Z)
     (Some ((Z.of_nat k - Z.of_nat n) * Z.of_nat nun)%Z) (1 - Z.of_nat nun)%Z
     = map (fun t => Z.to_nat (Z.of_nat P0 - Z.of_nat t * Z.of_nat (nun - 1))) (seq 0 (n - k))).
  { replace (1 - Z.of_nat nun)%Z with (- Z.of_nat (nun - 1))%Z by lia.
    apply (slice_down _ _ _ _ (Z.of_nat ((k + 1) * nun))); try lia.
    - unfold slice_adjust. destruct (Z.ltb_spec (- Z.of_nat (nun - 1)) 0); [|lia].
      destruct (Z.ltb_spec (Z.of_nat k - Z.of_nat n) 0); [|lia]. cbv zeta.
      destruct (Z.ltb_spec (Z.of_nat k - Z.of_nat n + Z.of_nat ((n + 1) * nun)) (-1)); unfold P0; nia.
    - unfold slice_adjust. destruct (Z.ltb_spec (- Z.of_nat (nun - 1)) 0); [|lia].
      destruct (Z.ltb_spec ((Z.of_nat k - Z.of_nat n) * Z.of_nat nun) 0); [|nia]. cbv zeta.
      destruct (Z.ltb_spec ((Z.of_nat k - Z.of_nat n) * Z.of_nat nun + Z.of_nat ((n + 1) * nun)) (-1)); nia.
    }
  set (idx := map (fun t => Z.to_nat (Z.of_nat P0 - Z.of_nat t * Z.of_nat (nun - 1))) (seq 0 (n - k))) in *.
  assert (Pt : forall t, (t < n - k)%nat -> Z.to_nat (Z.of_nat P0 - Z.of_nat t * Z.of_nat (nun - 1)) = ((n - t) * nun + (nun - n + k + t))%nat).
  { intros t Ht. unfold P0. nia. }
  assert (Li : length idx = (n - k)%nat) by (unfold idx; rewrite map_length, seq_length; reflexivity).
  assert (Lv : length (skipn k (@bc_row R _ n (i + 1))) = (n - k)%nat) by (rewrite skipn_length, bc_row_len by lia; reflexivity).
  assert (Ni : forall t, (t < n - k)%nat -> nth t idx 0%nat = ((n - t) * nun + (nun - n + k + t))%nat).
  { intros t Ht. rewrite <- Pt by auto. unfold idx. set (f := fun t => Z.to_nat (Z.of_nat P0 - Z.of_nat t * Z.of_nat (nun - 1))).
    rewrite (nth_indep _ 0%nat (f 0%nat)) by (rewrite map_length, seq_length; auto). rewrite (map_nth f), seq_nth by auto. reflexivity. }
  assert (ND : NoDup idx).
  { apply (NoDup_nth idx 0%nat). intros t t' Ht Ht'. rewrite Li in *. rewrite !Ni by auto. intros E. nia. }
  exists (wr ab idx (skipn k (bc_row n (i + 1)))). split.
  - unfold fset. rewrite EI, Li, Lv, Nat.eqb_refl. reflexivity.
  - intros r j Hr Hj. destruct (Nat.eqb_spec (r + j) (nun + k)) as [E|E].
    + assert (Ht : (n - r < n - k)%nat) by lia. replace (r * nun + j)%nat with (nth (n - r) idx 0%nat).
      * rewrite (wr_hit _ _ _ _ 0) by (auto; lia). rewrite nth_skipn'. rewrite nth_bc_row by lia. do 2 f_equal; lia.
      * rewrite Ni by auto. nia.
    + apply wr_miss. intros HI. apply (In_nth _ _ 0%nat) in HI. destruct HI as (t & Ht & Et). rewrite Li in Ht. rewrite Ni in Et by auto.
      apply E. assert (H : (r = n - t)%nat) by nia. nia.
Qed.

Lemma hi_loop_ok n nun dxl (hi : list (option (nd R))) : (2 <= n)%nat -> (n <= nun)%nat ->
  forall i k (b : arr2 R) ab, (i + length hi <= n - 1)%nat -> (k + count_some hi <= n - 1)%nat -> bfit (nc b) hi ->
  exists b' ab', hi_loop n nun dxl i k hi b ab = Ok (b', ab') /\ nr b' = nr b /\ nc b' = nc b /\
    (forall p c, at2 b' p c = if ((nun - (n - 1) + k <=? p) && (p <? nun - (n - 1) + k + count_some hi))%nat
       then bval (specs i hi) dxl (p - (nun - (n - 1) + k)) c else at2 b p c) /\
    (forall r j, (r <= n)%nat -> (j < nun)%nat ->
      ab' (r * nun + j)%nat = if ((nun + k <=? r + j) && (r + j <? nun + k + count_some hi))%nat
        then INR (binom (j - (nun - n) + 1) (fst (nth (r + j - nun - k) (specs i hi) bdef) + 1)) else ab (r * nun + j)%nat).
Proof.
  intros Hn Hun. induction hi as [|[bd|] hi IH]; intros i k b ab Hi Hk Hf.
  - exists b, ab. split; [reflexivity|]. split; [reflexivity|]. split; [reflexivity|].
    unfold count_some; cbn [filter length]. rewrite !Nat.add_0_r. split; intros.
    + destruct (Nat.leb_spec (nun - (n - 1) + k) p); cbn [andb]; auto.
      destruct (Nat.ltb_spec p (nun - (n - 1) + k)); auto. lia.
    + destruct (Nat.leb_spec (nun + k) (r + j)); cbn [andb]; auto.
      destruct (Nat.ltb_spec (r + j) (nun + k)); auto. lia.
  - unfold count_some in *. cbn [filter is_some length] in *. cbn [hi_loop].
    destruct (Nat.leb_spec (n - 1) k); [lia|].
    unfold set_row. rewrite (Hf bd) by (left; auto). cbn [bind].
    destruct (hi_write n nun i k ab) as (ab1 & E1 & G1); try lia. rewrite E1. cbn [bind].
    edestruct (IH (S i) (S k)) as (b' & ab' & E & R1 & R2 & Gb & Ga); [lia|lia| |].
    2:{ rewrite E. exists b', ab'. cbn [nr nc] in *. split; [reflexivity|]. split; [auto|]. split; [auto|]. split.
        - intros p c. rewrite Gb. cbn [at2 specs].
          destruct (Nat.eqb_spec p (nun - (n - 1) + k)) as [->|Hp].
          + destruct (Nat.leb_spec (nun - (n - 1) + S k) (nun - (n - 1) + k)); [lia|]. cbn [andb].
            rewrite Nat.leb_refl. destruct (Nat.ltb_spec (nun - (n - 1) + k) (nun - (n - 1) + k + S (length (filter is_some hi)))); [|lia].
            cbn [andb]. rewrite Nat.sub_diag. reflexivity.
          + destruct (Nat.leb_spec (nun - (n - 1) + S k) p); destruct (Nat.leb_spec (nun - (n - 1) + k) p); try lia; cbn [andb]; auto.
            destruct (Nat.ltb_spec p (nun - (n - 1) + S k + length (filter is_some hi)));
            destruct (Nat.ltb_spec p (nun - (n - 1) + k + S (length (filter is_some hi)))); try lia; auto.
            replace (p - (nun - (n - 1) + k))%nat with (S (p - (nun - (n - 1) + S k))) by lia. reflexivity.
        - intros r j Hr Hj. rewrite Ga by auto. cbn [specs]. rewrite G1 by auto.
          destruct (Nat.eqb_spec (r + j) (nun + k)) as [Hp|Hp].
          + destruct (Nat.leb_spec (nun + S k) (r + j)); [lia|]. cbn [andb].
            destruct (Nat.leb_spec (nun + k) (r + j)); [|lia].
            destruct (Nat.ltb_spec (r + j) (nun + k + S (length (filter is_some hi)))); [|lia]. cbn [andb].
            replace (r + j - nun - k)%nat with O by lia. reflexivity.
          + destruct (Nat.leb_spec (nun + S k) (r + j)); destruct (Nat.leb_spec (nun + k) (r + j)); try lia; cbn [andb]; auto.
            destruct (Nat.ltb_spec (r + j) (nun + S k + length (filter is_some hi)));
            destruct (Nat.ltb_spec (r + j) (nun + k + S (length (filter is_some hi)))); try lia; auto.
            replace (r + j - nun - k)%nat with (S (r + j - nun - S k)) by lia. reflexivity. }
    intros b0 Hb0. apply Hf. right; auto.
  - cbn [hi_loop]. apply IH; cbn [length] in *; auto; [lia|]. intros b0 Hb0. apply Hf. right; auto.
Qed.

Lemma lo_index n nun c mi : (2 <= n)%nat -> (n <= nun)%nat -> (c <= n - 2)%nat -> (mi <= c)%nat ->
  nth_error (slice_indices ((n + 1) * nun) (Some (Z.of_nat (c * nun))) None (1 - Z.of_nat nun)%Z) mi
  = Some ((c - mi) * nun + mi)%nat.
Proof.
  intros Hn Hun Hc Hm. set (d := (nun - 1)%nat). set (cnt := ((c * nun) / d + 1)%nat).
  assert (Hd : (0 < d)%nat) by (unfold d; lia).
  pose proof (Nat.div_mod (c * nun) d ltac:(lia)) as DM. pose proof (Nat.mod_upper_bound (c * nun) d ltac:(lia)) as MB.
  assert (EI : slice_indices ((n + 1) * nun) (Some (Z.of_nat (c * nun))) None (1 - Z.of_nat nun)%Z
     = map (fun t => Z.to_nat (Z.of_nat (c * nun) - Z.of_nat t * Z.of_nat d)) (seq 0 cnt)).
  { replace (1 - Z.of_nat nun)%Z with (- Z.of_nat d)%Z by (unfold d; lia).
    apply (slice_down _ _ _ _ (-1)%Z); auto.
    - unfold cnt; lia.
    - unfold slice_adjust. destruct (Z.ltb_spec (- Z.of_nat d) 0); [|lia].
      destruct (Z.ltb_spec (Z.of_nat (c * nun)) 0); [lia|].
      destruct (Z.ltb_spec (Z.of_nat ((n + 1) * nun) - 1) (Z.of_nat (c * nun))); nia.
    - unfold slice_adjust. destruct (Z.ltb_spec (- Z.of_nat d) 0); [reflexivity|lia].
    - unfold cnt. nia.
    - unfold cnt. nia. }
  rewrite EI.
  assert (Hmi : (mi < cnt)%nat).
  { unfold cnt. assert (mi <= c * nun / d)%nat; [|lia]. apply Nat.div_le_lower_bound; [lia|]. unfold d. nia. }
  rewrite nth_error_map. rewrite (nth_error_nth' _ 0%nat) by (rewrite seq_length; auto). rewrite seq_nth by auto. cbn [option_map Nat.add].
  f_equal. unfold d. nia.
Qed.

Definition mi_at (l : list (option (nd R))) (k : nat) : nat := fst (nth k (specs 0 l) bdef).
Lemma count_app {A} (l m : list (option A)) : count_some (l ++ m) = (count_some l + count_some m)%nat.
Proof. unfold count_some. rewrite filter_app, app_length. reflexivity. Qed.
Lemma lo_loop_ok n nun dx0 nlo : (2 <= n)%nat -> (n <= nun)%nat -> (nlo <= n - 1)%nat ->
  forall (lo : list (option (nd R))) (b : arr2 R) ab,
  (count_some lo <= nlo)%nat -> (length lo + (nlo - count_some lo) <= n - 1)%nat -> bfit (nc b) lo ->
  exists b' ab',
    lo_loop n nun dx0 (n - 1 - length lo) (count_some lo) (Z.of_nat (n - 1 - nlo + count_some lo) * Z.of_nat nun)%Z (rev lo) b ab = Ok (b', ab') /\
    nr b' = nr b /\ nc b' = nc b /\
    (forall p c, at2 b' p c = if (p <? count_some lo)%nat then bval (specs 0 lo) dx0 p c else at2 b p c) /\
    (forall k, (k < count_some lo)%nat -> ab' ((n - 1 - nlo + k - mi_at lo k) * nun + mi_at lo k)%nat = 1) /\
    (forall r j, (r <= n)%nat -> (j < nun)%nat ->
       (forall k, (k < count_some lo)%nat -> ~ (j = mi_at lo k /\ r + j = n - 1 - nlo + k)%nat) ->
       ab' (r * nun + j)%nat = ab (r * nun + j)%nat).
Proof.
  intros Hn Hun Hnlo. induction lo as [|x lo IH] using rev_ind; intros b ab Hc Hl Hf.
  - exists b, ab. cbn. repeat split; auto. intros; lia.
  - rewrite count_app in *. rewrite app_length in *. cbn [length] in *. rewrite rev_app_distr. cbn [rev app].
    assert (Lm : (count_some lo <= length lo)%nat) by apply count_le.
    assert (Mlt : forall k, (k < count_some lo)%nat -> mi_at (lo ++ [x]) k = mi_at lo k).
    { intros k Hk. unfold mi_at. rewrite specs_app, app_nth1 by (rewrite specs_len; auto). reflexivity. }
    destruct x as [bd|]; unfold count_some at 2 in Hc; unfold count_some at 2 in Hl; cbn [filter is_some length] in Hc, Hl;
      change (count_some [Some bd]) with 1%nat || change (count_some (A := nd R) [None]) with 0%nat.
    + cbn [lo_loop].
      replace (n - 2 - (n - 1 - (length lo + 1)))%nat with (length lo) by lia.
      replace (count_some lo + 1 - 1)%nat with (count_some lo) by lia.
      unfold set_row. rewrite (Hf bd) by (apply in_or_app; right; left; auto). cbn [bind].
      replace (Z.of_nat (n - 1 - nlo + (count_some lo + 1)) * Z.of_nat nun - Z.of_nat nun)%Z
        with (Z.of_nat ((n - 1 - nlo + count_some lo) * nun))%Z by nia.
      rewrite lo_index by lia.
      assert (Hf' : bfit (nc b) lo) by (intros b0 Hb0; apply Hf; apply in_or_app; left; auto).
      edestruct (IH (Arr2 (nr b) (nc b) (fun i t => if (i =? count_some lo)%nat then (bget bd [t] * dxpow dx0 (length lo))%K else at2 b i t)) 
          (fun q => if (q =? (n - 1 - nlo + count_some lo - length lo) * nun + length lo)%nat then n1 else ab q))
        as (b' & ab' & E & R1 & R2 & Gb & G1 & G0); [lia|lia|exact Hf'|].
      replace (S (n - 1 - (length lo + 1))) with (n - 1 - length lo)%nat by lia.
      rewrite Nat2Z.inj_mul. rewrite E. exists b', ab'. cbn [nr nc] in *. split; [reflexivity|]. split; [auto|]. split; [auto|].
      assert (ML : mi_at (lo ++ [Some bd]) (count_some lo) = length lo).
      { unfold mi_at. rewrite specs_app, app_nth2 by (rewrite specs_len; auto). rewrite specs_len, Nat.sub_diag. reflexivity. }
      assert (Mb : forall k, (k < count_some lo)%nat -> (mi_at lo k < length lo)%nat).
      { intros k Hk. rewrite <- (specs_len 0 lo) in Hk. destruct (specs_bound 0 lo k bdef Hk) as [_ B]. unfold mi_at. lia. }
      split; [|split].
      * intros p c. rewrite Gb. cbn [at2]. unfold bval. rewrite specs_app.
        destruct (Nat.ltb_spec p (count_some lo)).
        -- destruct (Nat.ltb_spec p (count_some lo + 1)); [|lia]. rewrite app_nth1 by (rewrite specs_len; auto). reflexivity.
        -- destruct (Nat.eqb_spec p (count_some lo)) as [->|]; destruct (Nat.ltb_spec p (count_some lo + 1)) || destruct (Nat.ltb_spec (count_some lo) (count_some lo + 1)); try lia; auto.
           rewrite app_nth2 by (rewrite specs_len; auto). rewrite specs_len, Nat.sub_diag. reflexivity.
      * intros k Hk. destruct (Nat.eq_dec k (count_some lo)) as [->|Hk'].
        -- rewrite ML. rewrite G0.
           ++ rewrite Nat.eqb_refl. reflexivity.
           ++ lia.
           ++ lia.
           ++ intros k Hk' [E1 _]. specialize (Mb k Hk'). lia.
        -- rewrite Mlt by lia. apply G1. lia.
      * intros r j Hr Hj Hk. rewrite G0; auto.
        -- destruct (Nat.eqb_spec (r * nun + j) ((n - 1 - nlo + count_some lo - length lo) * nun + length lo)) as [E1|]; auto.
           exfalso. apply flat_ij in E1; [|lia|lia]. apply (Hk (count_some lo) ltac:(lia)). rewrite ML. lia.
        -- intros k Hk' HH. apply (Hk k ltac:(lia)). rewrite Mlt by auto. exact HH.
    + cbn [lo_loop]. rewrite Nat.add_0_r.
      assert (Hf' : bfit (nc b) lo) by (intros b0 Hb0; apply Hf; apply in_or_app; left; auto).
      destruct (IH b ab) as (b' & ab' & E & R1 & R2 & Gb & G1 & G0); [lia|lia|exact Hf'|].
      replace (S (n - 1 - (length lo + 1))) with (n - 1 - length lo)%nat by lia.
      exists b', ab'. split; [exact E|]. split; [auto|]. split; [auto|].
      assert (SA : specs 0 (lo ++ [None]) = specs 0 lo) by (rewrite specs_app; cbn; apply app_nil_r).
      split; [|split].
      * intros p c. rewrite SA. apply Gb.
      * intros k Hk. rewrite Mlt by auto. apply G1; auto.
      * intros r j Hr Hj Hk. apply G0; auto. intros k Hk'. rewrite <- Mlt by auto. apply Hk; auto.
Qed.

(* --- the continuity equations ---------------------------------------------------------- *)
Lemma mcum_pow (r : R) m : mcum r m = - r ^ m.
Proof. induction m as [|m IH]; cbn [mcum pow]; numR; [ring|]. rewrite IH. ring. Qed.
Lemma reg_sum0 n q (v term : nat -> R) : (1 <= n)%nat -> term 0%nat = 0 ->
  (forall a, (1 <= a < n)%nat -> term a = v (q * n + a - 1)%nat) ->
  rsum n term + v (q * n + (n - 1))%nat = rsum n (fun t => v (q * n + t)%nat).
Proof.
  intros Hn H0 H. destruct n as [|n']; [lia|]. rewrite rsum_S_l, H0. cbn [rsum].
  rewrite (rsum_ext n' (fun i => term (S i)) (fun t => v (q * S n' + t)%nat)).
  - replace (S n' - 1)%nat with n' by lia. ring.
  - intros t Ht. rewrite H by lia. f_equal. lia.
Qed.
Lemma reg_sum n q m (v term : nat -> R) : (1 <= m < n)%nat ->
  (forall a, (a < n)%nat -> term a = if (m + a - 1 <? n)%nat then INR (binom (m + a) m) * v (q * n + (m + a - 1))%nat else 0) ->
  rsum n term = rsum n (fun t => INR (binom (t + 1) m) * v (q * n + t)%nat).
Proof.
  intros Hm H. rewrite (rsum_cut (n - m + 1) n term); [|lia|].
  2:{ intros a Ha. rewrite H by lia. destruct (Nat.ltb_spec (m + a - 1) n); [lia|reflexivity]. }
  set (g := fun t => INR (binom (t + 1) m) * v (q * n + t)%nat).
  transitivity (rsum ((m - 1) + (n - m + 1)) g); [|f_equal; lia]. rewrite (rsum_split (m - 1)). unfold g.
  rewrite (rsum_zero (m - 1)).
  2:{ intros t Ht. rewrite binom_gt by lia. cbn; ring. }
  rewrite Rplus_0_l. apply rsum_ext. intros a Ha. rewrite H by lia. destruct (Nat.ltb_spec (m + a - 1) n); [|lia].
  f_equal; [do 2 f_equal|f_equal]; lia.
Qed.

Section Equations.
  Variables (n : nat) (x : list R).
  Hypothesis Hn : (2 <= n)%nat.
  Hypothesis Hx : (2 <= length x)%nat.
  Let nseg := (length x - 1)%nat.
  Let nun := (nseg * n)%nat.
  Lemma nun_ge : (n <= nun)%nat.
  Proof. unfold nun, nseg. nia. Qed.

  Lemma ab_0 j i : ((j + nun - (n - 1)) mod nun = i)%nat ->
    at2 (spl_ab n x) 0 j = if (i mod n =? 0)%nat then 1 else - (dx_ratio x (i / n)) ^ (i mod n).
  Proof.
    intros E. unfold spl_ab. cbn [at2]. fold nseg. fold nun. rewrite E. unfold dxr_at. numR. rewrite mcum_pow. reflexivity.
  Qed.
  Lemma ab_S r' j : (r' < n)%nat -> let a := (n - 1 - r')%nat in let t := (j mod n)%nat in
    at2 (spl_ab n x) (S r') j = if ((a =? 0) && (t =? n - 1))%nat then 0 else INR (binom (S t) a).
  Proof.
    intros H a t. unfold spl_ab. cbn [at2]. fold a. fold t. apply nth_bc_row0; unfold a, t; [lia|].
    apply Nat.mod_upper_bound. lia.
  Qed.
  (* the value of equation q*n+m for the unknowns v *)
  Definition eqval (v : nat -> R) (q m : nat) : R :=
    rsum n (fun t => INR (binom (t + 1) m) * v (q * n + t)%nat)
    - if (m =? 0)%nat then 0 else dx_ratio x q ^ m * v ((q + 1) mod nseg * n + (m - 1))%nat.

  Lemma mod_qm q m : (m < n)%nat -> ((q * n + m) mod n = m /\ (q * n + m) / n = q)%nat.
  Proof. intros H. destruct (divmod_flat n q m H). split; auto. Qed.

  Lemma eq_nonper (f : nat -> nat -> R) v q m : (m < n)%nat -> (q * n + m <= nun - n)%nat ->
    (forall r j, (r <= n)%nat -> (j < nun)%nat -> (r + j = n - 1 + (q * n + m))%nat -> f r j = at2 (spl_ab n x) r j) ->
    adsum n nun f v (n - 1 + (q * n + m)) = eqval v q m.
  Proof.
    intros Hm Hi Hf. pose proof nun_ge as HN. set (i := (q * n + m)%nat) in *.
    destruct (mod_qm q m Hm) as [M1 M2]. fold i in M1, M2.
    assert (Hq : (q < nseg)%nat) by (unfold nun in *; nia).
    assert (Hq1 : (m = 0 \/ q + 1 < nseg)%nat) by (unfold nun in *; nia).
    unfold adsum. rewrite Nat.add_1_r, rsum_S_l. cbn [Nat.leb andb]. rewrite Nat.sub_0_r.
    destruct (Nat.ltb_spec (n - 1 + i) nun); [|lia]. rewrite Hf by lia.
    rewrite (ab_0 (n - 1 + i) i).
    2:{ replace (n - 1 + i + nun - (n - 1))%nat with (i + 1 * nun)%nat by lia. rewrite Nat.mod_add, Nat.mod_small by lia. reflexivity. }
    rewrite M1, M2. rewrite rsum_rev.
    assert (T : forall a, (a < n)%nat ->
      (let r := S (n - 1 - a) in if ((r <=? n - 1 + i) && (n - 1 + i - r <? nun))%nat then f r (n - 1 + i - r)%nat * v (n - 1 + i - r)%nat else 0) =
      if (m + a =? 0)%nat then 0 else if (m + a - 1 <? n)%nat then INR (binom (m + a) m) * v (q * n + (m + a - 1))%nat else 0).
    { intros a Ha. cbv zeta. destruct (Nat.leb_spec (S (n - 1 - a)) (n - 1 + i)) as [H1|H1]; cbn [andb].
      2:{ destruct (Nat.eqb_spec (m + a) 0); [reflexivity|]. unfold i in *. nia. }
      destruct (Nat.ltb_spec (n - 1 + i - S (n - 1 - a)) nun) as [H2|H2].
      2:{ destruct (Nat.eqb_spec (m + a) 0); [reflexivity|]. destruct (Nat.ltb_spec (m + a - 1) n); [|reflexivity].
          exfalso. destruct Hq1; unfold i, nun in *; nia. }
      rewrite Hf by lia. rewrite ab_S by lia. replace (n - 1 - (n - 1 - a))%nat with a by lia.
      set (j := (n - 1 + i - S (n - 1 - a))%nat).
      assert (Ej : (j = i + a - 1)%nat) by (unfold j; lia).
      destruct (Nat.eqb_spec (m + a) 0) as [Z|NZ].
      - assert (a = 0 /\ m = 0)%nat as [-> ->] by lia. rewrite Nat.eqb_refl. cbn [andb].
        replace (j mod n)%nat with (n - 1)%nat; [rewrite Nat.eqb_refl; ring|].
        unfold i in *. destruct q as [|q']; [lia|]. rewrite Ej. replace (S q' * n + 0 + 0 - 1)%nat with (q' * n + (n - 1))%nat by nia.
        symmetry. apply (mod_qm q' (n - 1)). lia.
      - destruct (Nat.ltb_spec (m + a - 1) n) as [H3|H3].
        + assert (Ej' : (j = q * n + (m + a - 1))%nat) by (unfold i in *; lia). rewrite Ej'.
          destruct (mod_qm q (m + a - 1) H3) as [-> _].
          assert (Z : ((a =? 0) && (m + a - 1 =? n - 1))%nat = false).
          { destruct (Nat.eqb_spec a 0); cbn [andb]; auto. destruct (Nat.eqb_spec (m + a - 1) (n - 1)); auto. lia. }
          rewrite Z. replace (S (m + a - 1)) with (m + a)%nat by lia. rewrite binom_sym. reflexivity.
        + assert (Ej' : (j = (q + 1) * n + (m + a - 1 - n))%nat) by (unfold i in *; nia). rewrite Ej'.
          destruct (mod_qm (q + 1) (m + a - 1 - n) ltac:(lia)) as [-> _].
          rewrite binom_gt by lia. destruct ((a =? 0) && (m + a - 1 - n =? n - 1))%nat; cbn; ring. }
    match goal with |- _ + rsum n ?g = _ => rewrite (rsum_ext n g _ T) end. unfold eqval. destruct (Nat.eqb_spec m 0) as [->|Hm0].
    - rewrite Rmult_1_l, Rplus_comm. replace (n - 1 + i)%nat with (q * n + (n - 1))%nat by (unfold i; lia).
      rewrite reg_sum0.
      + rewrite Rminus_0_r. apply rsum_ext. intros t Ht. rewrite binom_0. cbn; ring.
      + lia.
      + reflexivity.
      + intros a Ha. cbn [Nat.add]. destruct (Nat.eqb_spec a 0); [lia|]. destruct (Nat.ltb_spec (a - 1) n); [|lia].
        rewrite binom_0. cbn [INR]. rewrite Rmult_1_l. f_equal. lia.
    - rewrite (reg_sum n q m v).
      + destruct Hq1 as [|Hq1]; [lia|]. rewrite Nat.mod_small by auto.
        replace ((q + 1) * n + (m - 1))%nat with (n - 1 + i)%nat by (unfold i; lia). ring.
      + lia.
      + intros a Ha. destruct (Nat.eqb_spec (m + a) 0); [lia|]. reflexivity.
  Qed.

  Lemma eq_per v q m : (m < n)%nat -> (q < nseg)%nat ->
    rsum nun (fun j => cyc 1 (n - 1) (spl_ab n x) (q * n + m) j * v j) = eqval v q m.
  Proof.
    intros Hm Hq. pose proof nun_ge as HN. set (i := (q * n + m)%nat) in *.
    destruct (mod_qm q m Hm) as [M1 M2]. fold i in M1, M2.
    assert (Hi : (i < nun)%nat) by (unfold i, nun; nia).
    assert (Hnun : (0 < nun)%nat) by lia.
    change nun with (nc (spl_ab n x)). rewrite cyc_adsum by (cbn [nc spl_ab]; fold nseg; fold nun; lia).
    change (nc (spl_ab n x)) with nun. replace (1 + (n - 1) + 1)%nat with (S n) by lia. rewrite rsum_S_l. cbv zeta.
    rewrite Nat.sub_0_r.
    rewrite (ab_0 _ i).
    2:{ replace ((n - 1 + i + nun) mod nun + nun - (n - 1))%nat with ((n - 1 + i + nun) mod nun + (nun - (n - 1)))%nat by lia.
        rewrite Nat.add_mod_idemp_l by lia. replace (n - 1 + i + nun + (nun - (n - 1)))%nat with (i + 2 * nun)%nat by lia.
        rewrite Nat.mod_add, Nat.mod_small by lia. reflexivity. }
    rewrite M1, M2. rewrite rsum_rev.
    assert (MM : forall z, ((z mod nun) mod n = z mod n)%nat).
    { intros z. rewrite (Nat.div_mod z nun) at 2 by lia. unfold nun at 2.
      replace (nseg * n * (z / nun) + z mod nun)%nat with (z mod nun + (nseg * (z / nun)) * n)%nat by nia.
      rewrite Nat.mod_add by lia. reflexivity. }
    assert (T : forall a, (a < n)%nat ->
      at2 (spl_ab n x) (S (n - 1 - a)) ((n - 1 + i + nun - S (n - 1 - a)) mod nun) * v ((n - 1 + i + nun - S (n - 1 - a)) mod nun)%nat =
      if (m + a =? 0)%nat then 0 else if (m + a - 1 <? n)%nat then INR (binom (m + a) m) * v (q * n + (m + a - 1))%nat else 0).
    { intros a Ha. replace (n - 1 + i + nun - S (n - 1 - a))%nat with (i + a + nun - 1)%nat by lia.
      rewrite ab_S by lia. rewrite MM. replace (n - 1 - (n - 1 - a))%nat with a by lia.
      destruct (Nat.eqb_spec (m + a) 0) as [Z|NZ].
      - assert (a = 0 /\ m = 0)%nat as [-> ->] by lia. rewrite Nat.eqb_refl. cbn [andb].
        replace ((i + 0 + nun - 1) mod n)%nat with (n - 1)%nat; [rewrite Nat.eqb_refl; ring|].
        replace (i + 0 + nun - 1)%nat with ((q + nseg - 1) * n + (n - 1))%nat by (unfold i, nun; nia).
        symmetry. apply (mod_qm (q + nseg - 1) (n - 1)). lia.
      - destruct (Nat.ltb_spec (m + a - 1) n) as [H3|H3].
        + replace (i + a + nun - 1)%nat with (q * n + (m + a - 1) + 1 * nun)%nat by (unfold i; lia).
          rewrite Nat.mod_add by lia. rewrite (Nat.mod_small (q * n + (m + a - 1)) nun) by (unfold nun; nia).
          replace ((q * n + (m + a - 1) + 1 * nun) mod n)%nat with (m + a - 1)%nat.
          2:{ replace (q * n + (m + a - 1) + 1 * nun)%nat with ((q + nseg) * n + (m + a - 1))%nat by (unfold nun; lia).
              symmetry. apply (mod_qm (q + nseg) (m + a - 1)). auto. }
          assert (Z : ((a =? 0) && (m + a - 1 =? n - 1))%nat = false).
          { destruct (Nat.eqb_spec a 0); cbn [andb]; auto. destruct (Nat.eqb_spec (m + a - 1) (n - 1)); auto. lia. }
          rewrite Z. replace (S (m + a - 1)) with (m + a)%nat by lia. rewrite binom_sym. reflexivity.
        + replace ((i + a + nun - 1) mod n)%nat with (m + a - 1 - n)%nat.
          2:{ replace (i + a + nun - 1)%nat with ((q + 1 + nseg) * n + (m + a - 1 - n))%nat by (unfold i, nun; nia).
              symmetry. apply (mod_qm (q + 1 + nseg) (m + a - 1 - n)). lia. }
          rewrite binom_gt by lia. destruct ((a =? 0) && (m + a - 1 - n =? n - 1))%nat; cbn; ring. }
    match goal with |- _ + rsum n ?g = _ => rewrite (rsum_ext n g _ T) end. unfold eqval. destruct (Nat.eqb_spec m 0) as [->|Hm0].
    - rewrite Rmult_1_l, Rplus_comm.
      replace ((n - 1 + i + nun) mod nun)%nat with (q * n + (n - 1))%nat.
      2:{ replace (n - 1 + i + nun)%nat with (q * n + (n - 1) + 1 * nun)%nat by (unfold i; lia). rewrite Nat.mod_add by lia.
          symmetry. apply Nat.mod_small. unfold nun. nia. }
      rewrite reg_sum0.
      + rewrite Rminus_0_r. apply rsum_ext. intros t Ht. rewrite binom_0. cbn; ring.
      + lia.
      + reflexivity.
      + intros a Ha. cbn [Nat.add]. destruct (Nat.eqb_spec a 0); [lia|]. destruct (Nat.ltb_spec (a - 1) n); [|lia].
        rewrite binom_0. cbn [INR]. rewrite Rmult_1_l. f_equal. lia.
    - rewrite (reg_sum n q m v).
      + replace ((n - 1 + i + nun) mod nun)%nat with ((q + 1) mod nseg * n + (m - 1))%nat; [ring|].
        destruct (Nat.eq_dec (q + 1) nseg) as [E|E].
        * rewrite E, Nat.mod_same by lia. replace (n - 1 + i + nun)%nat with (0 * n + (m - 1) + 2 * nun)%nat by (unfold i, nun; nia).
          rewrite Nat.mod_add by lia. symmetry. apply Nat.mod_small. lia.
        * rewrite (Nat.mod_small (q + 1)) by lia. replace (n - 1 + i + nun)%nat with ((q + 1) * n + (m - 1) + 1 * nun)%nat by (unfold i; lia).
          rewrite Nat.mod_add by lia. symmetry. apply Nat.mod_small. unfold nun. nia.
      + lia.
      + intros a Ha. destruct (Nat.eqb_spec (m + a) 0); [lia|]. reflexivity.
  Qed.
End Equations.

Lemma at_roll2 m (b : arr2 R) i t : (m < nr b)%nat -> (m <= i < nr b)%nat -> at2 (roll2 m b) i t = at2 b (i - m) t.
Proof.
  intros Hm Hi. unfold roll2. cbn [at2]. rewrite (Nat.mod_small m) by auto. f_equal.
  replace (i + (nr b - m))%nat with (i - m + 1 * nr b)%nat by lia. rewrite Nat.mod_add, Nat.mod_small; lia.
Qed.
(* the equations the solution of spl_solve satisfies *)
Definition spl_eqs (n : nat) (x : list R) (per : bool) (lo hi : list (option (nd R))) (y : nat -> R) (c : nat) (v : nat -> R) : Prop :=
  let nseg := (length x - 1)%nat in
  (forall q m, (m < n)%nat -> (q < nseg)%nat -> (m = 0 \/ per = true \/ q + 1 < nseg)%nat ->
     eqval n x v q m = if (m =? 0)%nat then y (q + 1)%nat - y q else 0) /\
  (per = false ->
   (forall k, (k < count_some lo)%nat -> v (mi_at lo k) = bval (specs 0 lo) (dxs x 0) k c) /\
   (forall k, (k < count_some hi)%nat ->
      rsum n (fun t => INR (binom (t + 1) (mi_at hi k + 1)) * v ((nseg - 1) * n + t)%nat) = bval (specs 0 hi) (dxs x (nseg - 1)) k c)).

(* ... with zero data *)
Definition spl_hom (n : nat) (x : list R) (per : bool) (lo hi : list (option (nd R))) (v : nat -> R) : Prop :=
  let nseg := (length x - 1)%nat in
  (forall q m, (m < n)%nat -> (q < nseg)%nat -> (m = 0 \/ per = true \/ q + 1 < nseg)%nat -> eqval n x v q m = 0) /\
  (per = false ->
   (forall k, (k < count_some lo)%nat -> v (mi_at lo k) = 0) /\
   (forall k, (k < count_some hi)%nat ->
      rsum n (fun t => INR (binom (t + 1) (mi_at hi k + 1)) * v ((nseg - 1) * n + t)%nat) = 0)).

Lemma at_spl_b n nk nshape yf q m c : (m < n)%nat ->
  at2 (@spl_b R _ n nk nshape yf) (q * n + m) c = if (m =? 0)%nat then yf c (q + 1)%nat - yf c q else 0.
Proof.
  intros Hm. unfold spl_b. cbn [at2]. destruct (divmod_flat n q m Hm) as [-> ->]. numR. reflexivity.
Qed.

(* the banded system spl_solve hands to solve_banded *)
Definition spl_system (n : nat) (x : list R) (nshape : nat) (yf : nat -> nat -> R) (lo hi : list (option (nd R))) (ab b : arr2 R) : Prop :=
  let nun := ((length x - 1) * n)%nat in let nlo := count_some lo in
  nr ab = (n + 1)%nat /\ nc ab = nun /\ nr b = nun /\ nc b = nshape /\
  forall v c, (c < nshape)%nat ->
   ((forall i, (i < nun)%nat -> rsum nun (fun j => band (1 + nlo) (n - 1 - nlo) ab i j * v j) = at2 b i c) <->
    spl_eqs n x false lo hi (yf c) c v) /\
   ((forall i, (i < nun)%nat -> rsum nun (fun j => band (1 + nlo) (n - 1 - nlo) ab i j * v j) = 0) <->
    spl_hom n x false lo hi v).
Lemma spl_solve_system sb s n (x : list R) nshape yf lo hi :
  (2 <= n)%nat -> (2 <= length x)%nat -> length lo = (n - 1)%nat -> (length hi <= n - 1)%nat ->
  (count_some lo + count_some hi = n - 1)%nat -> bfit nshape lo -> bfit nshape hi ->
  exists ab b, spl_solve sb s n x nshape yf false lo hi (count_some lo) = sb (1 + count_some lo)%nat (n - 1 - count_some lo)%nat ab b /\
    spl_system n x nshape yf lo hi ab b.
Proof.
  intros Hn Hx Ll Lh Hc Fl Fh. pose proof (nun_ge n x Hn Hx) as HN.
  set (nseg := (length x - 1)%nat) in *. set (nun := (nseg * n)%nat) in *. set (nlo := count_some lo) in *.
  unfold spl_solve. fold nseg. fold nun.
  set (ab0 := flat2 (Arr2 (n + 1) nun (fun r j => if ((r =? 0) && (j <? n - 1))%nat then n0 else at2 (spl_ab n x) r j))).
  assert (A0 : forall r j, (j < nun)%nat -> ab0 (r * nun + j)%nat = if ((r =? 0) && (j <? n - 1))%nat then 0 else at2 (spl_ab n x) r j).
  { intros r j Hj. unfold ab0, flat2. cbn [nc at2]. destruct (divmod_flat nun r j Hj) as [-> ->]. reflexivity. }
  destruct (hi_loop_ok n nun (dxs x (length x - 2)) hi Hn HN 0 0 (spl_b n (length x) nshape yf) ab0)
    as (b1 & ab1 & E1 & R1 & C1 & Gb1 & Ga1); [lia|unfold nlo in *; lia|exact Fh|].
  rewrite E1. cbn [bind].
  set (b2 := if (nlo =? 0)%nat then b1 else roll2 nlo b1).
  assert (R2 : nr b2 = nun) by (unfold b2; destruct (nlo =? 0)%nat; cbn [roll2 nr]; rewrite R1; reflexivity).
  assert (C2 : nc b2 = nshape) by (unfold b2; destruct (nlo =? 0)%nat; cbn [roll2 nc]; rewrite C1; reflexivity).
  assert (R1' : nr b1 = nun) by (rewrite R1; reflexivity).
  assert (G2 : forall i c, (nlo <= i < nun)%nat -> at2 b2 i c = at2 b1 (i - nlo) c).
  { intros i c Hi. unfold b2. destruct (Nat.eqb_spec nlo 0) as [Z|Z]; [f_equal; lia|]. apply at_roll2; lia. }
  destruct (lo_loop_ok n nun (dxs x 0) nlo Hn HN ltac:(lia) lo b2 ab1) as (b3 & ab3 & E3 & R3 & C3 & Gb3 & Go3 & Ga3);
    [unfold nlo; lia|unfold nlo; lia|rewrite C2; exact Fl|].
  fold nlo in E3, Gb3, Go3, Ga3.
  replace (n - 1 - length lo)%nat with 0%nat in E3 by lia. replace (n - 1 - nlo + nlo)%nat with (n - 1)%nat in E3 by lia.
  rewrite E3. cbn [bind].
  exists (unflat2 (n + 1) nun ab3), b3. split; [reflexivity|].
  split; [reflexivity|]. split; [reflexivity|]. split; [lia|]. split; [lia|].
  intros v c Hcl. cbv zeta. fold nseg. fold nun. fold nlo.
  assert (HS : forall i, (i < nun)%nat ->
      rsum nun (fun j => band (1 + nlo) (n - 1 - nlo) (unflat2 (n + 1) nun ab3) i j * v j) =
      adsum n nun (fun r j => ab3 (r * nun + j)%nat) v (n - 1 - nlo + i)).
  { intros i Hi. change nun with (nc (unflat2 (n + 1) nun ab3)) at 1. rewrite band_adsum by auto.
    replace (1 + nlo + (n - 1 - nlo))%nat with n by lia. reflexivity. }
  assert (Hab3 : forall r j, (r <= n)%nat -> (j < nun)%nat -> (n - 1 <= r + j)%nat -> ab3 (r * nun + j)%nat = ab1 (r * nun + j)%nat).
  { intros r j Hr Hj Hs. apply Ga3; auto. intros k Hk [E' E'']. lia. }
  assert (Mb : forall k, (k < nlo)%nat -> (mi_at lo k <= n - 1 - nlo + k)%nat).
  { intros k Hk. unfold nlo in Hk. rewrite <- (specs_len 0 lo) in Hk. destruct (specs_bound 0 lo k bdef Hk) as [_ B].
    rewrite specs_len in B. unfold mi_at. fold nlo in B. lia. }
  (* the three kinds of equation *)
  assert (Q1 : forall q m, (m < n)%nat -> (q < nseg)%nat -> (m = 0 \/ q + 1 < nseg)%nat ->
     adsum n nun (fun r j => ab3 (r * nun + j)%nat) v (n - 1 - nlo + (nlo + (q * n + m))) = eqval n x v q m /\
     at2 b3 (nlo + (q * n + m)) c = if (m =? 0)%nat then yf c (q + 1)%nat - yf c q else 0).
  { intros q m Hm Hq Hqm. assert (Hi : (q * n + m <= nun - n)%nat) by (unfold nun in *; destruct Hqm; nia). split.
    - replace (n - 1 - nlo + (nlo + (q * n + m)))%nat with (n - 1 + (q * n + m))%nat by lia.
      apply eq_nonper; auto. intros r j Hr Hj Hs. rewrite Hab3 by lia. rewrite Ga1 by auto.
      rewrite Nat.add_0_r. destruct (Nat.leb_spec nun (r + j)); [lia|]. cbn [andb].
      rewrite A0 by auto. destruct (Nat.eqb_spec r 0); cbn [andb]; auto. destruct (Nat.ltb_spec j (n - 1)); auto. lia.
    - rewrite Gb3. destruct (Nat.ltb_spec (nlo + (q * n + m)) nlo); [lia|]. rewrite G2 by lia.
      replace (nlo + (q * n + m) - nlo)%nat with (q * n + m)%nat by lia. rewrite Gb1.
      rewrite Nat.add_0_r. destruct (Nat.leb_spec (nun - (n - 1)) (q * n + m)); [lia|]. cbn [andb]. apply at_spl_b; auto. }
  assert (Q2 : forall k, (k < nlo)%nat ->
     adsum n nun (fun r j => ab3 (r * nun + j)%nat) v (n - 1 - nlo + k) = v (mi_at lo k) /\
     at2 b3 k c = bval (specs 0 lo) (dxs x 0) k c).
  { intros k Hk. split.
    - set (s0 := (n - 1 - nlo + k)%nat). unfold adsum. specialize (Mb k Hk).
      rewrite (rsum_single (n + 1) (s0 - mi_at lo k)).
      + destruct (Nat.leb_spec (s0 - mi_at lo k) s0); [|lia]. replace (s0 - (s0 - mi_at lo k))%nat with (mi_at lo k) by (unfold s0; lia).
        destruct (Nat.ltb_spec (mi_at lo k) nun); [|lia]. cbn [andb]. unfold s0. rewrite Go3 by auto. ring.
      + unfold s0; lia.
      + intros r Hr Hne. destruct (Nat.leb_spec r s0) as [Hrs|]; cbn [andb]; auto. destruct (Nat.ltb_spec (s0 - r) nun) as [Hj|]; auto.
        replace (ab3 (r * nun + (s0 - r))%nat) with 0; [ring|]. symmetry.
        rewrite Ga3; [|lia|auto|].
        * rewrite Ga1 by lia. rewrite Nat.add_0_r. destruct (Nat.leb_spec nun (r + (s0 - r))); [unfold s0 in *; lia|]. cbn [andb].
          rewrite A0 by auto. destruct r as [|r].
          -- cbn [Nat.eqb andb]. destruct (Nat.ltb_spec (s0 - 0) (n - 1)); [reflexivity|unfold s0 in *; lia].
          -- cbn [Nat.eqb andb]. rewrite ab_S by (auto; lia). rewrite Nat.mod_small by (unfold s0 in *; lia).
             rewrite binom_gt by (unfold s0 in *; lia). destruct (_ && _); reflexivity.
        * intros k' Hk' [E' E'']. assert (k' = k) by (unfold s0 in *; lia). subst k'. unfold s0 in *; lia.
    - rewrite Gb3. destruct (Nat.ltb_spec k nlo); [|lia]. reflexivity. }
  assert (Q3 : forall k, (k < count_some hi)%nat ->
     adsum n nun (fun r j => ab3 (r * nun + j)%nat) v (n - 1 - nlo + (nlo + (nun - (n - 1)) + k)) =
        rsum n (fun t => INR (binom (t + 1) (mi_at hi k + 1)) * v ((nseg - 1) * n + t)%nat) /\
     at2 b3 (nlo + (nun - (n - 1)) + k) c = bval (specs 0 hi) (dxs x (nseg - 1)) k c).
  { intros k Hk. split.
    - replace (n - 1 - nlo + (nlo + (nun - (n - 1)) + k))%nat with (nun + k)%nat by lia. unfold adsum. rewrite rsum_rev.
      assert (Hk' := Hk). rewrite <- (specs_len 0 hi) in Hk'. destruct (specs_bound 0 hi k bdef Hk') as [B1 _]. fold (mi_at hi k) in B1.
      assert (Enun : ((nseg - 1) * n = nun - n)%nat) by (unfold nun; nia).
      rewrite (rsum_cut (n - k) (n + 1)); [|lia|].
      2:{ intros r Hr. destruct (Nat.ltb_spec (nun + k - (n + 1 - 1 - r)) nun); [lia|]. rewrite andb_false_r. reflexivity. }
      set (g := fun t => INR (binom (t + 1) (mi_at hi k + 1)) * v ((nseg - 1) * n + t)%nat).
      transitivity (rsum (k + (n - k)) g); [|f_equal; lia]. rewrite rsum_split. unfold g. clear g.
      rewrite (rsum_zero k), Rplus_0_l.
      2:{ intros t Ht. rewrite binom_gt by lia. cbn; ring. }
      apply rsum_ext. intros r Hr. replace (n + 1 - 1 - r)%nat with (n - r)%nat by lia.
      destruct (Nat.leb_spec (n - r) (nun + k)); [|lia].
      destruct (Nat.ltb_spec (nun + k - (n - r)) nun) as [Hj|Hj]; [|lia]. cbn [andb].
      rewrite Hab3 by lia. rewrite Ga1 by lia. rewrite !Nat.add_0_r.
      destruct (Nat.leb_spec nun (n - r + (nun + k - (n - r)))); [|lia].
      destruct (Nat.ltb_spec (n - r + (nun + k - (n - r))) (nun + count_some hi)); [|lia]. cbn [andb].
      replace (n - r + (nun + k - (n - r)) - nun - 0)%nat with k by lia. fold (mi_at hi k).
      f_equal; [do 2 f_equal|f_equal]; lia.
    - rewrite Gb3. destruct (Nat.ltb_spec (nlo + (nun - (n - 1)) + k) nlo); [lia|]. rewrite G2 by lia.
      rewrite Gb1. rewrite !Nat.add_0_r. destruct (Nat.leb_spec (nun - (n - 1)) (nlo + (nun - (n - 1)) + k - nlo)); [|lia].
      destruct (Nat.ltb_spec (nlo + (nun - (n - 1)) + k - nlo) (nun - (n - 1) + count_some hi)); [|lia]. cbn [andb].
      replace (nlo + (nun - (n - 1)) + k - nlo - (nun - (n - 1)))%nat with k by lia.
      replace (length x - 2)%nat with (nseg - 1)%nat by (unfold nseg; lia). reflexivity. }
  split; unfold spl_eqs, spl_hom; fold nseg.
  { split.
  - intros H. split.
    + intros q m Hm Hq Hqm. destruct Hqm as [Hqm|[Hqm|Hqm]]; [|discriminate|];
      (destruct (Q1 q m Hm Hq ltac:(auto)) as [<- <-]; rewrite <- HS, H; [reflexivity|unfold nun in *; nia..]).
    + intros _. split.
      * intros k Hk. destruct (Q2 k Hk) as [<- <-]. rewrite <- HS, H by lia. reflexivity.
      * intros k Hk. destruct (Q3 k Hk) as [<- <-]. rewrite <- HS, H by lia. reflexivity.
  - intros [H1 H2] i Hi. destruct (H2 eq_refl) as [H3 H4]. rewrite HS by auto.
    destruct (Nat.lt_ge_cases i nlo) as [Hl|Hl].
    + destruct (Q2 i Hl) as [-> ->]. auto.
    + destruct (Nat.lt_ge_cases (i - nlo) (nun - (n - 1))) as [Hm|Hm].
      * pose proof (Nat.div_mod (i - nlo) n ltac:(lia)) as DM. pose proof (Nat.mod_upper_bound (i - nlo) n ltac:(lia)) as MB.
        set (q := ((i - nlo) / n)%nat) in *. set (m := ((i - nlo) mod n)%nat) in *.
        assert (Hq : (q < nseg)%nat) by (unfold nun in *; nia).
        assert (Hqm : (m = 0 \/ q + 1 < nseg)%nat).
        { destruct (Nat.eq_dec m 0); auto. right. unfold nun in *. nia. }
        destruct (Q1 q m MB Hq Hqm) as [T1 T2].
        replace (nlo + (q * n + m))%nat with i in T1, T2 by lia. rewrite T1, T2. apply H1; auto. tauto.
      * destruct (Q3 (i - nlo - (nun - (n - 1)))%nat ltac:(lia)) as [T1 T2].
        replace (nlo + (nun - (n - 1)) + (i - nlo - (nun - (n - 1))))%nat with i in T1, T2 by lia.
        rewrite T1, T2. apply H4. lia. }
  { split.
  - intros H. split.
    + intros q m Hm Hq Hqm. destruct Hqm as [Hqm|[Hqm|Hqm]]; [|discriminate|];
      (destruct (Q1 q m Hm Hq ltac:(auto)) as [<- _]; rewrite <- HS, H; [reflexivity|unfold nun in *; nia..]).
    + intros _. split.
      * intros k Hk. destruct (Q2 k Hk) as [<- _]. rewrite <- HS, H by lia. reflexivity.
      * intros k Hk. destruct (Q3 k Hk) as [<- _]. rewrite <- HS, H by lia. reflexivity.
  - intros [H1 H2] i Hi. destruct (H2 eq_refl) as [H3 H4]. rewrite HS by auto.
    destruct (Nat.lt_ge_cases i nlo) as [Hl|Hl].
    + destruct (Q2 i Hl) as [-> _]. auto.
    + destruct (Nat.lt_ge_cases (i - nlo) (nun - (n - 1))) as [Hm|Hm].
      * pose proof (Nat.div_mod (i - nlo) n ltac:(lia)) as DM. pose proof (Nat.mod_upper_bound (i - nlo) n ltac:(lia)) as MB.
        set (q := ((i - nlo) / n)%nat) in *. set (m := ((i - nlo) mod n)%nat) in *.
        assert (Hq : (q < nseg)%nat) by (unfold nun in *; nia).
        assert (Hqm : (m = 0 \/ q + 1 < nseg)%nat).
        { destruct (Nat.eq_dec m 0); auto. right. unfold nun in *. nia. }
        destruct (Q1 q m MB Hq Hqm) as [T1 T2].
        replace (nlo + (q * n + m))%nat with i in T1, T2 by lia. rewrite T1. apply H1; auto. tauto.
      * destruct (Q3 (i - nlo - (nun - (n - 1)))%nat ltac:(lia)) as [T1 T2].
        replace (nlo + (nun - (n - 1)) + (i - nlo - (nun - (n - 1))))%nat with i in T1, T2 by lia.
        rewrite T1. apply H4. lia. }
Qed.
