(* The slices of PyBase.v, which the models of spline.py, fit and solve use: the elements that python selects. *)
From Coq Require Import List Arith ZArith Lia.
From Verif Require Import PyBase.
Import ListNotations.
Local Open Scope Z_scope.

(** ** Spec *)
(* a negative bound counts from the end *)
Definition from_end (n v : Z) : Z := if v <? 0 then v + n else v.
(* x[a:b:s] with s > 0: from the first position not below a, in steps of s, below b *)
Definition selected_up (n : Z) (a b : option Z) (s i : Z) : Prop :=
  let a' := match a with None => 0 | Some v => Z.max 0 (from_end n v) end in
  a' <= i /\ i < n /\ match b with None => True | Some v => i < from_end n v end /\ exists t, i = a' + t * s.
(* s < 0: from the last position not above a, in steps of s, above b *)
Definition selected_down (n : Z) (a b : option Z) (s i : Z) : Prop :=
  let a' := match a with None => n - 1 | Some v => Z.min (n - 1) (from_end n v) end in
  0 <= i /\ i <= a' /\ match b with None => True | Some v => from_end n v < i end /\ exists t, i = a' + t * s.

Lemma steps_up L s t : 0 < s -> 0 <= t -> (t < (L - 1) / s + 1 <-> t * s < L).
Proof.
  intros Hs Ht. split; intros H.
  - assert (t <= (L - 1) / s) as T by lia. assert (s * ((L - 1) / s) <= L - 1) by (apply Z.mul_div_le; lia). nia.
  - assert (t <= (L - 1) / s); [|lia]. apply Z.div_le_lower_bound; lia.
Qed.
Lemma slice_len_up a b s t : 0 < s -> (0 <= t < slice_len a b s <-> 0 <= t /\ a + t * s < b).
Proof.
  intros Hs. unfold slice_len. destruct (Z.ltb_spec s 0); [lia|]. destruct (Z.ltb_spec a b).
  - split; intros [H1 H2]; (split; [exact H1|]); apply (steps_up (b - a) s t) in H2 || apply (steps_up (b - a) s t); lia.
  - split; intros [H1 H2]; [lia|nia].
Qed.
Lemma slice_len_down a b s t : s < 0 -> (0 <= t < slice_len a b s <-> 0 <= t /\ b < a + t * s).
Proof.
  intros Hs. unfold slice_len. destruct (Z.ltb_spec s 0); [|lia]. destruct (Z.ltb_spec b a).
  - split; intros [H1 H2]; (split; [exact H1|]); apply (steps_up (a - b) (- s) t) in H2 || apply (steps_up (a - b) (- s) t); lia.
  - split; intros [H1 H2]; [lia|nia].
Qed.
Lemma in_slice n a b s i : In i (slice_indices n a b s) <->
  exists t, 0 <= t < slice_len (slice_adjust (Z.of_nat n) s a true) (slice_adjust (Z.of_nat n) s b false) s /\
    i = Z.to_nat (slice_adjust (Z.of_nat n) s a true + t * s).
Proof.
  unfold slice_indices. rewrite in_map_iff. split.
  - intros (t & <- & H). apply in_seq in H. exists (Z.of_nat t). split; [lia|reflexivity].
  - intros (t & H & ->). exists (Z.to_nat t). split; [now rewrite Z2Nat.id by lia|]. apply in_seq. lia.
Qed.
Theorem slice_up_spec n a b s i : 0 < s -> (In i (slice_indices n a b s) <-> selected_up (Z.of_nat n) a b s (Z.of_nat i)).
Proof.
  intros Hs. rewrite in_slice. unfold selected_up. cbv zeta.
  set (A := slice_adjust (Z.of_nat n) s a true). set (B := slice_adjust (Z.of_nat n) s b false).
  set (a' := match a with None => 0 | Some v => Z.max 0 (from_end (Z.of_nat n) v) end).
  assert (HA : A = Z.min a' (Z.of_nat n) /\ 0 <= a').
  { unfold A, a', slice_adjust, from_end. destruct (Z.ltb_spec s 0); [lia|]. destruct a as [v|]; [|lia].
    destruct (Z.ltb_spec v 0); [destruct (Z.ltb_spec (v + Z.of_nat n) 0); lia|destruct (Z.ltb_spec (Z.of_nat n) v); lia]. }
  assert (HB : forall i, 0 <= i -> (i < B <-> i < Z.of_nat n /\ match b with None => True | Some v => i < from_end (Z.of_nat n) v end)).
  { intros z Hz. unfold B, slice_adjust, from_end. destruct (Z.ltb_spec s 0); [lia|]. destruct b as [v|]; [|lia].
    destruct (Z.ltb_spec v 0); [destruct (Z.ltb_spec (v + Z.of_nat n) 0); lia|destruct (Z.ltb_spec (Z.of_nat n) v); lia]. }
  clearbody A B a'. destruct HA as [HA Ha]. split.
  - intros (t & H & ->). apply slice_len_up in H; [|exact Hs]. destruct H as [T H]. assert (0 <= t * s) by nia. assert (A0 : 0 <= A) by lia. rewrite Z2Nat.id by lia.
    apply HB in H; [|lia]. assert (A = a') as -> by lia. split; [lia|]. split; [lia|]. split; [tauto|]. now exists t.
  - intros (H1 & H2 & H3 & t & H4). assert (A = a') as -> by lia. exists t. rewrite <- H4, Nat2Z.id. split; [|reflexivity].
    apply slice_len_up; [exact Hs|]. split; [nia|]. rewrite <- H4. apply HB; [lia|tauto].
Qed.
Theorem slice_down_spec n a b s i : s < 0 -> (In i (slice_indices n a b s) <-> selected_down (Z.of_nat n) a b s (Z.of_nat i)).
Proof.
  intros Hs. rewrite in_slice. unfold selected_down. cbv zeta.
  set (A := slice_adjust (Z.of_nat n) s a true). set (B := slice_adjust (Z.of_nat n) s b false).
  set (a' := match a with None => Z.of_nat n - 1 | Some v => Z.min (Z.of_nat n - 1) (from_end (Z.of_nat n) v) end).
  assert (HA : A = Z.max a' (-1) /\ a' <= Z.of_nat n - 1).
  { unfold A, a', slice_adjust, from_end. destruct (Z.ltb_spec s 0); [|lia]. destruct a as [v|]; [|lia].
    destruct (Z.ltb_spec v 0); [destruct (Z.ltb_spec (v + Z.of_nat n) (-1)); lia|destruct (Z.ltb_spec (Z.of_nat n - 1) v); lia]. }
  assert (HB : forall i, i <= Z.of_nat n - 1 -> (B < i <-> 0 <= i /\ match b with None => True | Some v => from_end (Z.of_nat n) v < i end)).
  { intros z Hz. unfold B, slice_adjust, from_end. destruct (Z.ltb_spec s 0); [|lia]. destruct b as [v|]; [|lia].
    destruct (Z.ltb_spec v 0); [destruct (Z.ltb_spec (v + Z.of_nat n) (-1)); lia|destruct (Z.ltb_spec (Z.of_nat n - 1) v); lia]. }
  clearbody A B a'. destruct HA as [HA Ha]. split.
  - intros (t & H & ->). apply slice_len_down in H; [|exact Hs]. destruct H as [T H]. assert (t * s <= 0) by nia.
    apply HB in H; [|lia]. rewrite Z2Nat.id by lia. assert (A = a') as -> by lia. split; [lia|]. split; [lia|]. split; [tauto|]. now exists t.
  - intros (H1 & H2 & H3 & t & H4). assert (A = a') as -> by lia. exists t. rewrite <- H4, Nat2Z.id. split; [|reflexivity].
    apply slice_len_down; [exact Hs|]. split; [nia|]. rewrite <- H4. apply HB; [lia|tauto].
Qed.
(* in the order of the steps *)
Theorem slice_order n a b s k i j : s <> 0 -> nth_error (slice_indices n a b s) k = Some i -> nth_error (slice_indices n a b s) (S k) = Some j ->
  Z.of_nat j = Z.of_nat i + s.
Proof.
  intros Hs Hi Hj.
  assert (Kj : (S k < length (slice_indices n a b s))%nat) by (apply nth_error_Some; congruence).
  unfold slice_indices in *. set (A := slice_adjust (Z.of_nat n) s a true) in *. set (B := slice_adjust (Z.of_nat n) s b false) in *.
  rewrite map_length, seq_length in Kj. rewrite nth_error_map in Hi, Hj.
  rewrite (nth_error_nth' _ 0%nat) in Hi by (rewrite seq_length; lia). rewrite (nth_error_nth' _ 0%nat) in Hj by (rewrite seq_length; lia).
  rewrite seq_nth in Hi, Hj by lia. cbn [option_map] in Hi, Hj. assert (Ei : i = Z.to_nat (A + Z.of_nat k * s)) by (change (Some (Z.to_nat (A + Z.of_nat k * s)) = Some i) in Hi; congruence). assert (Ej : j = Z.to_nat (A + Z.of_nat (S k) * s)) by (change (Some (Z.to_nat (A + Z.of_nat (S k) * s)) = Some j) in Hj; congruence).
  assert (P : forall t, 0 <= t < slice_len A B s -> 0 <= A + t * s).
  { intros t Ht. destruct (Z.lt_total s 0) as [L|[L|L]]; [|lia|].
    - apply slice_len_down in Ht; [|exact L]. assert (-1 <= B); [|lia]. unfold B, slice_adjust. destruct (Z.ltb_spec s 0); [|lia]. destruct b as [v|]; [|lia].
      destruct (Z.ltb_spec v 0); [destruct (Z.ltb_spec (v + Z.of_nat n) (-1)); lia|destruct (Z.ltb_spec (Z.of_nat n - 1) v); lia].
    - assert (0 <= A); [|nia]. unfold A, slice_adjust. destruct (Z.ltb_spec s 0); [lia|]. destruct a as [v|]; [|lia].
      destruct (Z.ltb_spec v 0); [destruct (Z.ltb_spec (v + Z.of_nat n) 0); lia|destruct (Z.ltb_spec (Z.of_nat n) v); lia]. }
  pose proof (P (Z.of_nat k) ltac:(lia)). pose proof (P (Z.of_nat (S k)) ltac:(lia)). rewrite Ei, Ej, !Z2Nat.id by assumption. rewrite Nat2Z.inj_succ. ring.
Qed.
Print Assumptions slice_up_spec. Print Assumptions slice_down_spec. Print Assumptions slice_order.
Example ex_slice : slice_indices 5 None None (-1) = [4; 3; 2; 1; 0]%nat /\ slice_indices 5 (Some 9) (Some (-9)) (-2) = [4; 2; 0]%nat /\
  slice_indices 5 (Some (-4)) (Some 4) 2 = [1; 3]%nat /\ slice_indices 5 (Some 3) (Some 3) 1 = [] /\ slice_indices 0 None None (-1) = [].
Proof. repeat split. Qed.
