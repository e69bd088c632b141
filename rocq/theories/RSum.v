(* Finite sums over R. *)
From Coq Require Import List Arith Lia Reals Lra.
Local Open Scope R_scope.

Fixpoint rsum (n : nat) (f : nat -> R) : R :=
  match n with O => 0 | S m => rsum m f + f m end.

Lemma rsum_ext n f g : (forall i, (i < n)%nat -> f i = g i) -> rsum n f = rsum n g.
Proof. induction n; cbn; intros H; auto. rewrite IHn, H; auto. Qed.
Lemma rsum_plus n f g : rsum n (fun i => f i + g i) = rsum n f + rsum n g.
Proof. induction n; cbn; [lra|]. rewrite IHn. lra. Qed.
Lemma rsum_minus n f g : rsum n (fun i => f i - g i) = rsum n f - rsum n g.
Proof. induction n; cbn; [lra|]. rewrite IHn. lra. Qed.
Lemma rsum_opp n f : rsum n (fun i => - f i) = - rsum n f.
Proof. induction n; cbn; [lra|]. rewrite IHn. lra. Qed.
Lemma rsum_scal n c f : rsum n (fun i => c * f i) = c * rsum n f.
Proof. induction n; cbn; [lra|]. rewrite IHn. lra. Qed.
Lemma rsum_scal_r n c f : rsum n (fun i => f i * c) = rsum n f * c.
Proof. induction n; cbn; [lra|]. rewrite IHn. lra. Qed.
Lemma rsum_zero n f : (forall i, (i < n)%nat -> f i = 0) -> rsum n f = 0.
Proof. induction n; cbn; intros H; auto. rewrite IHn, H; auto. lra. Qed.
Lemma rsum_const n c : rsum n (fun _ => c) = INR n * c.
Proof. induction n; [cbn; lra|]. rewrite S_INR. cbn [rsum]. rewrite IHn. lra. Qed.
Lemma rsum_swap n m (f : nat -> nat -> R) :
  rsum n (fun i => rsum m (fun j => f i j)) = rsum m (fun j => rsum n (fun i => f i j)).
Proof.
  induction n; cbn.
  - symmetry. apply rsum_zero. auto.
  - rewrite IHn, <- rsum_plus. reflexivity.
Qed.
Lemma rsum_split n m f : rsum (n + m) f = rsum n f + rsum m (fun i => f (n + i)%nat).
Proof.
  induction m; cbn.
  - rewrite Nat.add_0_r. lra.
  - rewrite Nat.add_succ_r. cbn. rewrite IHm. lra.
Qed.
Lemma rsum_S_l n f : rsum (S n) f = f 0%nat + rsum n (fun i => f (S i)).
Proof. change (S n) with (1 + n)%nat. rewrite rsum_split. cbn. lra. Qed.
(* a single term *)
Lemma rsum_single n k f : (k < n)%nat -> (forall i, (i < n)%nat -> i <> k -> f i = 0) -> rsum n f = f k.
Proof.
  induction n; cbn; intros Hk H; [lia|]. destruct (Nat.eq_dec k n) as [->|Hne].
  - rewrite rsum_zero; [lra|]. intros i Hi. apply H; lia.
  - rewrite IHn; [|lia|intros; apply H; lia]. rewrite (H n) by lia. lra.
Qed.
Lemma rsum_delta n k (f : nat -> R) :
  rsum n (fun i => if (i =? k)%nat then f i else 0) = if (k <? n)%nat then f k else 0.
Proof.
  destruct (Nat.ltb_spec k n).
  - rewrite (rsum_single n k); auto.
    + rewrite Nat.eqb_refl. reflexivity.
    + intros i Hi Hne. destruct (Nat.eqb_spec i k); [congruence|reflexivity].
  - apply rsum_zero. intros i Hi. destruct (Nat.eqb_spec i k); [lia|reflexivity].
Qed.
Lemma rsum_le n f g : (forall i, (i < n)%nat -> f i <= g i) -> rsum n f <= rsum n g.
Proof. induction n; cbn; intros H; [lra|]. specialize (IHn (fun i Hi => H i ltac:(lia))). specialize (H n ltac:(lia)). lra. Qed.
Lemma rsum_nonneg n f : (forall i, (i < n)%nat -> 0 <= f i) -> 0 <= rsum n f.
Proof. intros H. rewrite <- (rsum_zero n (fun _ => 0)) by auto. apply rsum_le; auto. Qed.
Lemma rsum_nonneg_0 n f : (forall i, (i < n)%nat -> 0 <= f i) -> rsum n f = 0 -> forall i, (i < n)%nat -> f i = 0.
Proof.
  induction n; cbn; intros H E i Hi; [lia|].
  pose proof (rsum_nonneg n f (fun i Hi => H i ltac:(lia))) as P. pose proof (H n ltac:(lia)) as Q.
  destruct (Nat.eq_dec i n) as [->|]; [lra|]. apply IHn; auto; try lra. lia.
Qed.
(* cut a longer sum whose tail vanishes *)
Lemma rsum_cut n m f : (n <= m)%nat -> (forall i, (n <= i < m)%nat -> f i = 0) -> rsum m f = rsum n f.
Proof.
  intros Hnm H. replace m with (n + (m - n))%nat by lia. rewrite rsum_split.
  rewrite (rsum_zero (m - n)); [lra|]. intros i Hi. apply H. lia.
Qed.
