(* cum and diff in double precision.  /repo/npplus/basic.py:330-378; numpy.cumsum adds from left to right. *)
From Coq Require Import List Arith ZArith Bool Lia Reals Lra.
From Flocq Require Import BinarySingleNaN.
From Verif Require Import Num PyBase NdArray NdLemmas RSum Basic BasicProofs PropsBasic PropsElem Float64 PropsFloat.
Import ListNotations.
Local Open Scope R_scope.

(** ** cum and diff in any arithmetic *)
Section Gen.
  Context {K : Type} {NK : Num K}.
  Lemma cum_gen (a : nd K) z k n : axis_is (length (shp a)) z k -> nth k (shp a) 0%nat = n ->
    exists c, cum a (Some z) = Ok c /\ shp c = upd k (S n) (shp a) /\
      forall idx, length idx = length (shp a) ->
        at_k c k 0 idx = n0 /\ forall i, at_k c k (S i) idx = cums (fun j => at_k a k j idx) i.
  Proof.
    intros Hax En. pose proof (axis_is_index _ _ _ Hax) as Hk'. destruct Hax as [Hk _].
    unfold cum. destruct (shp a) as [|d s] eqn:Es; [cbn in Hk; lia|]. rewrite <- Es in *.
    rewrite Hk'. cbn [of_opt bind].
    destruct (nd_cat2_ok (full (upd k 1%nat (shp a)) n0) (nd_cumsum k a) k (shp a) 1 n) as (c & E & Sc & G); auto.
    { cbn [nd_cumsum shp]. rewrite <- En. symmetry. apply upd_nth_self. }
    exists c. split; [exact E|]. split; [exact Sc|]. intros idx Hl. destruct (G idx Hl) as [G1 G2]. split.
    - rewrite G1 by lia. reflexivity.
    - intros i. change (S i) with (1 + i)%nat. rewrite G2. unfold at_k. cbn [nd_cumsum get].
      rewrite nth_upd_eq by lia. apply cums_ext. intros j _. rewrite upd_upd. reflexivity.
  Qed.
  Lemma diff_gen (a : nd K) k n : (k < length (shp a))%nat -> nth k (shp a) 0%nat = n ->
    exists r, nd_diff k a = Ok r /\ shp r = upd k (n - 1)%nat (shp a) /\
      forall idx, inb idx (shp a) -> forall i, (S i < n)%nat ->
        at_k r k i idx = nsub (at_k a k (S i) idx) (at_k a k i idx).
  Proof.
    intros Hk En. unfold nd_diff. rewrite En.
    rewrite (nd_map2_same _ _ _ (upd k (n - 1)%nat (shp a))) by reflexivity.
    eexists. split; [reflexivity|]. split; [reflexivity|]. intros idx Hi i Hin.
    unfold at_k. cbn [get]. assert (Hl := inb_length _ _ Hi).
    rewrite !bget_self by (cbn [nd_slice shp]; apply inb_upd_shape; auto; lia).
    cbn [nd_slice get]. rewrite nth_upd_eq, !upd_upd by lia. reflexivity.
  Qed.
End Gen.

(** ** Sums of doubles *)
Lemma rsum_abs n f : Rabs (rsum n f) <= rsum n (fun i => Rabs (f i)).
Proof. induction n as [|n IH]; cbn [rsum]; [rewrite Rabs_R0; lra|]. eapply Rle_trans; [apply Rabs_triang|]. lra. Qed.
Lemma rsum_mono n f g : (forall i, (i < n)%nat -> f i <= g i) -> rsum n f <= rsum n g.
Proof. induction n as [|n IH]; cbn [rsum]; intros H; [lra|]. pose proof (H n ltac:(lia)). specialize (IH ltac:(intros; apply H; lia)). lra. Qed.
Lemma cums_finite (f : nat -> f64) i : fin (cums f i) -> forall j, (j <= i)%nat -> fin (f j) /\ fin (cums f j).
Proof.
  induction i as [|i IH]; cbn [cums]; intros H j Hj.
  - assert (j = 0)%nat as -> by lia. auto.
  - destruct (fadd_fin _ _ H) as [H1 H2]. destruct (Nat.eq_dec j (S i)) as [->|]; [auto|]. apply IH; auto. lia.
Qed.
Lemma cums_sum_err (f : nat -> f64) i : fin (cums f i) ->
  Rabs (val (cums f i) - rsum (S i) (fun j => val (f j))) <= ((1 + uro) ^ i - 1) * rsum (S i) (fun j => Rabs (val (f j))).
Proof.
  pose proof uro_pos as U. induction i as [|i IH]; intros H.
  - cbn [cums rsum pow]. replace (val (f 0%nat) - (0 + val (f 0%nat))) with 0 by ring. rewrite Rabs_R0. lra.
  - cbn [cums] in *. destruct (fadd_fin _ _ H) as [H1 H2]. specialize (IH H1). rewrite (fadd_val _ _ H).
    destruct (rnd_plus_err (cums f i) (f (S i))) as (e & He & ->). cbn [pow]. set (w := (1 + uro) ^ i) in *. pose proof (upow_ge i) as P. fold w in P. clearbody w.
    change (rsum (S (S i)) (fun j => val (f j))) with (rsum (S i) (fun j => val (f j)) + val (f (S i))).
    change (rsum (S (S i)) (fun j => Rabs (val (f j)))) with (rsum (S i) (fun j => Rabs (val (f j))) + Rabs (val (f (S i)))).
    pose proof (rsum_abs (S i) (fun j => val (f j))) as A. set (s := rsum (S i) (fun j => val (f j))) in *. set (t := rsum (S i) (fun j => Rabs (val (f j)))) in *.
    set (c := val (cums f i)) in *. set (v := val (f (S i))) in *. clearbody s t c v.
    replace ((c + v) * (1 + e) - (s + v)) with ((c - s) * (1 + e) + (s + v) * e) by ring.
    eapply Rle_trans; [apply Rabs_triang|]. rewrite Rabs_mult.
    assert (A1 : Rabs (c - s) * Rabs (1 + e) <= (w - 1) * t * (1 + uro)) by (apply Rmult_le_compat; auto using Rabs_pos, abs_1e).
    assert (A2 : Rabs ((s + v) * e) <= uro * (t + Rabs v)).
    { eapply Rle_trans; [apply err_mul; exact He|]. apply Rmult_le_compat_l; [lra|]. eapply Rle_trans; [apply Rabs_triang|]. lra. }
    pose proof (Rabs_pos v). assert (0 <= (1 + uro) * (w - 1) * Rabs v) by (repeat apply Rmult_le_pos; lra).
    replace (((1 + uro) * w - 1) * (t + Rabs v)) with ((w - 1) * t * (1 + uro) + uro * (t + Rabs v) + (1 + uro) * (w - 1) * Rabs v) by ring. lra.
Qed.

(** ** C103 *)
(* In double precision cum is one longer than its argument, begins with exactly 0, and every later element that is finite
   is the sum of the finite elements before it, up to a relative error of one rounding per addition. *)
Theorem C103_cum_error (a : nd f64) z k n : axis_is (length (shp a)) z k -> nth k (shp a) 0%nat = n ->
  exists c, cum a (Some z) = Ok c /\ shp c = upd k (S n) (shp a) /\
    forall idx, length idx = length (shp a) -> at_k c k 0 idx = B754_zero false /\
      forall i, (i < n)%nat -> fin (at_k c k (S i) idx) ->
        (forall j, (j <= i)%nat -> fin (at_k a k j idx)) /\
        Rabs (val (at_k c k (S i) idx) - rsum (S i) (fun j => val (at_k a k j idx)))
          <= ((1 + uro) ^ i - 1) * rsum (S i) (fun j => Rabs (val (at_k a k j idx))).
Proof.
  intros Hax En. destruct (cum_gen a z k n Hax En) as (c & E & Sc & G). exists c. split; [exact E|]. split; [exact Sc|].
  intros idx Hl. destruct (G idx Hl) as [G0 G1]. split; [exact G0|]. intros i Hi F. rewrite G1 in *. split.
  - intros j Hj. apply (cums_finite _ i F j Hj).
  - apply cums_sum_err. exact F.
Qed.
Print Assumptions C103_cum_error.

(* sums of integers are exact while the sum of the absolute values is at most 2^53 *)
Fixpoint zsum (n : nat) (f : nat -> Z) : Z := match n with O => 0 | S m => zsum m f + f m end%Z.
Lemma zsum_abs n f : (Z.abs (zsum n f) <= zsum n (fun j => Z.abs (f j)))%Z.
Proof. induction n as [|n IH]; cbn [zsum]; lia. Qed.
Theorem C103_cum_integers (a : nd f64) z k n : axis_is (length (shp a)) z k -> nth k (shp a) 0%nat = n ->
  exists c, cum a (Some z) = Ok c /\
    forall idx f, length idx = length (shp a) -> (forall j, (j < n)%nat -> int64 (at_k a k j idx) (f j)) ->
      (zsum n (fun j => Z.abs (f j)) <= 2 ^ 53)%Z ->
      forall i, (i <= n)%nat -> int64 (at_k c k i idx) (zsum i f).
Proof.
  intros Hax En. destruct (cum_gen a z k n Hax En) as (c & E & Sc & G). exists c. split; [exact E|].
  intros idx f Hl I B i Hi. destruct (G idx Hl) as [G0 G1]. destruct i as [|i]; [rewrite G0; split; reflexivity|]. rewrite G1.
  assert (M : forall m, (m <= n)%nat -> (zsum m (fun j => Z.abs (f j)) <= 2 ^ 53)%Z).
  { intros m Hm. eapply Z.le_trans; [|exact B]. clear -Hm. induction Hm as [|n Hm IH]; [lia|]. cbn [zsum]. lia. }
  assert (Q : forall m, (m <= i)%nat -> int64 (cums (fun j => at_k a k j idx) m) (zsum (S m) f)).
  { induction m as [|m IH]; intros Hm.
    - cbn [cums zsum]. rewrite Z.add_0_l. apply I. lia.
    - cbn [cums]. destruct (IH ltac:(lia)) as [F V]. destruct (I (S m) ltac:(lia)) as [F' V'].
      change (zsum (S (S m)) f) with (zsum (S m) f + f (S m))%Z. apply fadd_int; auto; [rewrite V, V', <- plus_IZR; reflexivity|].
      pose proof (zsum_abs (S (S m)) f) as A. cbn [zsum] in A |- *. pose proof (M (S (S m)) ltac:(lia)) as A'. cbn [zsum] in A'. lia. }
  apply Q. lia.
Qed.
Print Assumptions C103_cum_integers.

(* cum of numbers >= 0 does not decrease: rounding is monotone *)
Theorem C103_cum_monotone (a : nd f64) z k n : axis_is (length (shp a)) z k -> nth k (shp a) 0%nat = n ->
  exists c, cum a (Some z) = Ok c /\
    forall idx, length idx = length (shp a) -> (forall j, (j < n)%nat -> fin (at_k a k j idx) /\ 0 <= val (at_k a k j idx)) ->
      fin (at_k c k n idx) -> forall i, (i < n)%nat ->
        fin (at_k c k i idx) /\ val (at_k c k i idx) <= val (at_k c k (S i) idx).
Proof.
  intros Hax En. destruct (cum_gen a z k n Hax En) as (c & E & Sc & G). exists c. split; [exact E|].
  intros idx Hl P F i Hi. destruct (G idx Hl) as [G0 G1].
  assert (FS : forall m, (m <= n)%nat -> fin (at_k c k m idx)).
  { intros m Hm. destruct m as [|m]; [rewrite G0; reflexivity|]. rewrite G1. destruct n as [|n]; [lia|]. rewrite G1 in F. apply (cums_finite _ n F). lia. }
  split; [apply FS; lia|]. pose proof (FS (S i) ltac:(lia)) as F'. rewrite G1 in F' |- *. destruct i as [|i].
  - rewrite G0. cbn [cums]. rewrite val_n0. apply P. lia.
  - rewrite G1. cbn [cums] in *. rewrite (fadd_val _ _ F'). rewrite <- (rnd_val (cums (fun j => at_k a k j idx) i)) at 1. apply rnd_le.
    pose proof (P (S i) ltac:(lia)) as [_ Q]. lra.
Qed.
Print Assumptions C103_cum_monotone.

(* diff undoes cum only up to the rounding of the sums *)
Theorem C103_diff_cum (a : nd f64) z k n : axis_is (length (shp a)) z k -> nth k (shp a) 0%nat = n ->
  exists c d, cum a (Some z) = Ok c /\ nd_diff k c = Ok d /\ shp d = shp a /\
    forall idx, inb idx (shp a) -> forall i, (i < n)%nat -> fin (at_k d k i idx) ->
      Rabs (val (at_k d k i idx) - val (at_k a k i idx)) <= uro * Rabs (val (at_k a k i idx)) + 2 * uro * Rabs (val (at_k c k (S i) idx)).
Proof.
  intros Hax En. destruct (cum_gen a z k n Hax En) as (c & E & Sc & G). assert (Hk : (k < length (shp a))%nat) by apply Hax.
  destruct (diff_gen c k (S n)) as (d & Ed & Sd & Gd); [rewrite Sc, upd_length; auto|rewrite Sc, nth_upd_eq; auto|].
  exists c, d. split; [exact E|]. split; [exact Ed|]. split; [rewrite Sd, Sc, upd_upd; replace (S n - 1)%nat with n by lia; rewrite <- En; apply upd_nth_self|].
  intros idx Hi i Hin F. destruct (G idx (inb_length _ _ Hi)) as [G0 G1].
  assert (HI : at_k d k i idx = nsub (at_k c k (S i) idx) (at_k c k i idx)).
  { pose proof (Gd (upd k i idx)) as Q. unfold at_k in *. specialize (Q ltac:(rewrite Sc; apply inb_upd_shape; auto; lia) i ltac:(lia)). rewrite !upd_upd in Q. exact Q. }
  rewrite HI in *. destruct (fsub_fin _ _ F) as [F1 F0]. rewrite (fsub_val _ _ F).
  set (v := at_k a k i idx) in *. pose proof uro_pos as U. assert (U1 : uro <= / 4). { rewrite uro_bpow. change (/ 4) with (Raux.bpow Zaux.radix2 (-2)). apply Raux.bpow_le. lia. }
  set (x := at_k c k i idx) in *. set (y := at_k c k (S i) idx) in *.
  assert (S1 : val y = rnd (val x + val v)).
  { unfold x, y, v. destruct i as [|i]; [rewrite G1, G0; cbn [cums]; rewrite val_n0, Rplus_0_l, rnd_val; reflexivity|].
    rewrite !G1. cbn [cums]. apply fadd_val. unfold y in F1. rewrite G1 in F1. exact F1. }
  destruct (rnd_plus_err x v) as (e & He & Q). rewrite Q in S1. clear Q.
  destruct (rnd_plus_err y (nopp x)) as (e2 & He2 & Q). rewrite val_opp in Q. fold (val y - val x) in Q. rewrite Q. clear Q.
  set (X := val x) in *. set (V := val v) in *. set (Y := val y) in *. clearbody X V Y. clear - S1 He He2 U U1.
  assert (T : Rabs (X + V) * (1 - uro) <= Rabs Y).
  { rewrite S1, Rabs_mult. apply Rmult_le_compat_l; [apply Rabs_pos|]. replace (1 + e) with (1 - - e) by ring. eapply Rle_trans; [|apply Rabs_triang_inv]. rewrite Rabs_R1, Rabs_Ropp. lra. }
  replace ((Y - X) * (1 + e2) - V) with (V * e2 + (X + V) * e * (1 + e2)) by (rewrite S1; ring).
  eapply Rle_trans; [apply Rabs_triang|]. apply Rplus_le_compat; [apply err_mul; exact He2|]. rewrite !Rabs_mult.
  pose proof (Rabs_pos (X + V)) as P. set (w := Rabs (X + V)) in *. clearbody w.
  apply Rle_trans with (w * uro * (1 + uro)).
  { apply Rmult_le_compat; auto using abs_1e, Rabs_pos. apply Rmult_le_pos; auto using Rabs_pos. apply Rmult_le_compat_l; auto. }
  apply Rle_trans with (2 * uro * (w * (1 - uro))); [|apply Rmult_le_compat_l; lra].
  assert (0 <= w * uro * (1 - 3 * uro)) by (apply Rmult_le_pos; [apply Rmult_le_pos; lra|lra]). replace (2 * uro * (w * (1 - uro))) with (w * uro * (1 + uro) + w * uro * (1 - 3 * uro)) by ring. lra.
Qed.
Print Assumptions C103_diff_cum.

(* cum of diff gives back the differences from the first element, up to the rounding errors *)
Theorem C103_cum_diff (a : nd f64) z k n : axis_is (length (shp a)) z k -> nth k (shp a) 0%nat = n -> (1 <= n)%nat ->
  exists d c, nd_diff k a = Ok d /\ cum d (Some z) = Ok c /\ shp c = shp a /\
    forall idx, inb idx (shp a) -> forall i, (i < n)%nat -> fin (at_k c k i idx) ->
      Rabs (val (at_k c k i idx) - (val (at_k a k i idx) - val (at_k a k 0 idx)))
        <= ((1 + uro) ^ i - 1) * rsum i (fun j => Rabs (val (at_k a k (S j) idx) - val (at_k a k j idx))).
Proof.
  intros Hax En Hn. assert (Hk : (k < length (shp a))%nat) by apply Hax.
  destruct (diff_gen a k n Hk En) as (d & Ed & Sd & Gd).
  assert (Hax' : axis_is (length (shp d)) z k) by (rewrite Sd, upd_length; auto).
  destruct (cum_gen d z k (n - 1) Hax') as (c & E & Sc & G); [rewrite Sd, nth_upd_eq; auto|].
  exists d, c. split; [exact Ed|]. split; [exact E|]. split.
  { rewrite Sc, Sd, upd_upd. replace (S (n - 1)) with n by lia. rewrite <- En. apply upd_nth_self. }
  intros idx Hi i Hin F. destruct (G idx) as [G0 G1]; [rewrite Sd, upd_length; apply inb_length; auto|].
  destruct i as [|i]. { rewrite G0, val_n0. cbn [rsum pow]. replace (0 - (val (at_k a k 0 idx) - val (at_k a k 0 idx))) with 0 by ring. rewrite Rabs_R0. lra. }
  rewrite G1 in *. pose proof (cums_sum_err _ _ F) as Q. pose proof (cums_finite _ _ F) as FF.
  assert (D : forall j, (j <= i)%nat -> exists e, Rabs e <= uro /\ val (at_k d k j idx) = (val (at_k a k (S j) idx) - val (at_k a k j idx)) * (1 + e)).
  { intros j Hj. destruct (FF j Hj) as [Fj _]. rewrite (Gd idx Hi) in Fj |- * by lia. rewrite (fsub_val _ _ Fj).
    destruct (rnd_plus_err (at_k a k (S j) idx) (nopp (at_k a k j idx))) as (e & He & R). rewrite val_opp in R. exists e. split; [exact He|exact R]. }
  assert (T : rsum (S i) (fun j => val (at_k a k (S j) idx) - val (at_k a k j idx)) = val (at_k a k (S i) idx) - val (at_k a k 0 idx)).
  { clear. induction i as [|i IH]; [cbn [rsum]; ring|]. change (rsum (S (S i)) ?f) with (rsum (S i) f + f (S i)). cbv beta. rewrite IH. ring. }
  pose proof uro_pos as U. rewrite <- T. set (D0 := fun j => val (at_k a k (S j) idx) - val (at_k a k j idx)) in *.
  assert (B1 : rsum (S i) (fun j => Rabs (val (at_k d k j idx))) <= (1 + uro) * rsum (S i) (fun j => Rabs (D0 j))).
  { rewrite <- rsum_scal. apply rsum_mono. intros j Hj. destruct (D j ltac:(lia)) as (e & He & ->). fold (D0 j). rewrite Rabs_mult, Rmult_comm. apply Rmult_le_compat_r; auto using Rabs_pos, abs_1e. }
  assert (B2 : Rabs (rsum (S i) (fun j => val (at_k d k j idx)) - rsum (S i) D0) <= uro * rsum (S i) (fun j => Rabs (D0 j))).
  { rewrite <- rsum_minus, <- rsum_scal. eapply Rle_trans; [apply rsum_abs|]. apply rsum_mono. intros j Hj. destruct (D j ltac:(lia)) as (e & He & ->). fold (D0 j).
    replace (D0 j * (1 + e) - D0 j) with (D0 j * e) by ring. apply err_mul; auto. }
  change (rsum (S i) (fun j => Rabs (val (at_k a k (S j) idx) - val (at_k a k j idx)))) with (rsum (S i) (fun j => Rabs (D0 j))).
  set (s := rsum (S i) D0) in *. set (s' := rsum (S i) (fun j => val (at_k d k j idx))) in *. set (A := rsum (S i) (fun j => Rabs (D0 j))) in *. set (A' := rsum (S i) (fun j => Rabs (val (at_k d k j idx)))) in *.
  cbn [pow]. pose proof (upow_ge i) as W. set (w := (1 + uro) ^ i) in *. set (y := val (cums (fun j => at_k d k j idx) i)) in *. clearbody s s' A A' w y.
  replace (y - s) with ((y - s') + (s' - s)) by ring. eapply Rle_trans; [apply Rabs_triang|].
  assert ((w - 1) * A' <= (w - 1) * ((1 + uro) * A)) by (apply Rmult_le_compat_l; lra). replace (((1 + uro) * w - 1) * A) with ((w - 1) * ((1 + uro) * A) + uro * A) by ring. lra.
Qed.
Print Assumptions C103_cum_diff.

(* So cum is not an inverse of diff, nor diff of cum: the sums 0, 1e16, 1e16 of 1e16, 1 (the last one rounded) have the differences
   1e16, 0, and the differences 1e16 (rounded), -1e16 of 1, 1e16, 0 have the sums 0, 1e16, 0: the last one should be -1. *)
Definition farr (l : list f64) : nd f64 := Nd [length l] (fun idx => nth (nth 0 idx 0%nat) l n0).
Definition int_is (x : f64) (z : Z) : bool := is_finite x && (x =? nofZ z)%K.
Lemma int_is_ok x z : (Z.abs z <= 2 ^ 53)%Z -> int_is x z = true -> fin x /\ val x = IZR z.
Proof.
  intros H E. apply andb_prop in E. destruct E as [F E]. split; [exact F|]. destruct (fofZ_val z H) as [F' V]. rewrite feq_val in E by auto.
  rewrite V in E. unfold Reqb in E. destruct (Req_EM_T _ _); [auto|discriminate].
Qed.
Theorem C103_inverse_refuted :
  (exists (a c d : nd f64), cum a (Some (-1)%Z) = Ok c /\ nd_diff 0 c = Ok d /\
     (forall i, (i < 2)%nat -> fin (get a [i]) /\ fin (get d [i])) /\ val (get a [1%nat]) = 1 /\ val (get d [1%nat]) = 0) /\
  (exists (a d c : nd f64), nd_diff 0 a = Ok d /\ cum d (Some (-1)%Z) = Ok c /\
     (forall i, (i < 3)%nat -> fin (get a [i]) /\ fin (get c [i])) /\
     val (get a [0%nat]) = 1 /\ val (get a [2%nat]) = 0 /\ val (get c [2%nat]) = 0).
Proof.
  set (big := nofZ (10 ^ 16) : f64). split.
  - set (a := farr [big; nofZ 1]).
    assert (Q : res_is (fun c => res_is (fun d => is_finite (get d [0%nat]) && int_is (get d [1%nat]) 0) (nd_diff 0 c)) (cum a (Some (-1)%Z)) = true) by (vm_compute; reflexivity).
    apply res_is_true in Q. destruct Q as (c & E & Q). apply res_is_true in Q. destruct Q as (d & E' & Q). apply andb_prop in Q. destruct Q as [Q1 Q2].
    apply int_is_ok in Q2; [|lia]. exists a, c, d. split; [exact E|]. split; [exact E'|]. split.
    + intros [|[|i]] Hi; [| |lia]; (split; [vm_compute; reflexivity|tauto || exact Q1]).
    + split; [apply (fofZ_val 1); lia|apply Q2].
  - set (a := farr [nofZ 1; big; nofZ 0]).
    assert (Q : res_is (fun d => res_is (fun c => is_finite (get c [0%nat]) && is_finite (get c [1%nat]) && int_is (get c [2%nat]) 0) (cum d (Some (-1)%Z))) (nd_diff 0 a) = true) by (vm_compute; reflexivity).
    apply res_is_true in Q. destruct Q as (d & E & Q). apply res_is_true in Q. destruct Q as (c & E' & Q). apply andb_prop in Q. destruct Q as [Q Q3]. apply andb_prop in Q. destruct Q as [Q1 Q2].
    apply int_is_ok in Q3; [|lia]. exists a, d, c. split; [exact E|]. split; [exact E'|]. split.
    + intros [|[|[|i]]] Hi; [| | |lia]; (split; [vm_compute; reflexivity|tauto || exact Q1 || exact Q2]).
    + split; [apply (fofZ_val 1); lia|]. split; [apply (fofZ_val 0); lia|apply Q3].
Qed.
Print Assumptions C103_inverse_refuted.
(* cum of 1, 2, 3, 4 and of 0.1, 0.2, 0.3 *)
Example ex_C103 : let a := farr [nofZ 1; nofZ 2; nofZ 3; nofZ 4] in let b := farr [nofZ 1 / nofZ 10; nofZ 2 / nofZ 10; nofZ 3 / nofZ 10]%K in
  axis_is (length (shp a)) (-1) 0 /\ nth 0 (shp a) 0%nat = 4%nat /\
  (forall j, (j < 4)%nat -> int64 (at_k a 0 j [0%nat]) (Z.of_nat (S j))) /\ (zsum 4 (fun j => Z.abs (Z.of_nat (S j))) <= 2 ^ 53)%Z /\
  res_is (fun c => int_is (get c [0%nat]) 0 && int_is (get c [2%nat]) 3 && int_is (get c [4%nat]) 10) (cum a (Some (-1)%Z)) = true /\
  res_is (fun c => negb (get c [2%nat] =? nofZ 3 / nofZ 10)%K && is_finite (get c [3%nat])) (cum b (Some (-1)%Z)) = true.
Proof.
  cbv zeta. split; [split; [cbn; lia|right; reflexivity]|]. split; [reflexivity|]. split.
  { intros j Hj. destruct j as [|[|[|[|j]]]]; [| | | |lia]; apply (fofZ_val); lia. }
  split; [vm_compute; discriminate|]. split; vm_compute; reflexivity.
Qed.
