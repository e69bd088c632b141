(* A reference implementation of the linear solves that npplus takes from scipy:
   Gaussian elimination in exact arithmetic.  It is not a model of repository code; it
   shows that the hypotheses made about scipy.linalg.solve and solve_banded can be
   met, and it makes the models executable over Q. *)
From Coq Require Import List Arith ZArith Lia Bool Reals Lra.
From Verif Require Import Num PyBase PwPoly RSum SolvePer.
Import ListNotations.

Section Gauss.
  Context {K : Type} {NK : Num K}.
  Local Open Scope num_scope.
  Local Open Scope res_scope.
  (* a row: coefficients and right-hand sides *)
  Local Notation row := (list K * list K)%type.
  Fixpoint pivot (rows : list row) : option (row * list row) :=
    match rows with
    | [] => None
    | r :: rest =>
      if hd n0 (fst r) =? n0 then
        match pivot rest with Some (p, rest') => Some (p, r :: rest') | None => None end
      else Some (r, rest)
    end.
  Definition axpy (f : K) (p r : list K) : list K := zipw (fun a b => b - f * a) p r.
  Definition elim (p r : row) : row :=
    let f := hd n0 (fst r) / hd n0 (fst p) in
    (tl (axpy f (fst p) (fst r)), axpy f (snd p) (snd r)).
  Fixpoint ldot (a : list K) (x : list (list K)) (c : nat) : K :=
    match a, x with
    | a0 :: a', x0 :: x' => a0 * nth c x0 n0 + ldot a' x' c
    | _, _ => n0
    end.
  Fixpoint gauss (n : nat) (rows : list row) : res (list (list K)) :=
    match n with
    | O => Ok []
    | S n' =>
      match pivot rows with
      | None => Err LinAlgError
      | Some (p, rest) =>
        let! xs := gauss n' (map (elim p) rest) in
        let x0 := map (fun c => (nth c (snd p) n0 - ldot (tl (fst p)) xs c) / hd n0 (fst p))
                      (seq 0 (length (snd p))) in
        Ok (x0 :: xs)
      end
    end.
  Definition gsolve (n : nat) (a : nat -> nat -> K) (b : arr2 K) : res (arr2 K) :=
    let! x := gauss n (map (fun i => (map (a i) (seq 0 n), row2 b i)) (seq 0 n)) in
    Ok (Arr2 n (nc b) (fun i c => nth c (nth i x []) n0)).
  Definition gdense (a b : arr2 K) : res (arr2 K) :=
    if ((nr a =? nc a) && (nr b =? nr a))%nat then gsolve (nr a) (at2 a) b else Err ValueError.
  Definition gbanded (l u : nat) (ab b : arr2 K) : res (arr2 K) :=
    if ((nr ab =? l + u + 1) && (nr b =? nc ab))%nat then
      gsolve (nc ab) (fun i j => if ((j <=? i + u) && (i <=? j + l))%nat then at2 ab (u + i - j) j else n0) b
    else Err ValueError.
End Gauss.

Local Open Scope R_scope.
(* the kernel is trivial *)
Definition nonsing (n : nat) (a : nat -> nat -> R) : Prop :=
  forall v : nat -> R, (forall i, (i < n)%nat -> rsum n (fun j => a i j * v j) = 0) -> forall j, (j < n)%nat -> v j = 0.

(* dot product of lists *)
Fixpoint vdot (a v : list R) : R :=
  match a, v with a0 :: a', v0 :: v' => a0 * v0 + vdot a' v' | _, _ => 0 end.
Definition rowok (n m : nat) (r : list R * list R) : Prop := length (fst r) = n /\ length (snd r) = m.

Lemma pivot_none rows : @pivot R _ rows = None -> forall r, In r rows -> hd 0 (fst r) = 0.
Proof.
  induction rows as [|r rows IH]; cbn; [tauto|]. numR.
  destruct (Reqb_spec (hd 0 (fst r)) 0) as [E|E]; [|discriminate].
  destruct (pivot rows) as [[p rest]|]; [discriminate|]. intros _ r' [<-|H]; auto.
Qed.
Lemma pivot_some rows p rest : @pivot R _ rows = Some (p, rest) ->
  hd 0 (fst p) <> 0 /\ length rows = S (length rest) /\ (forall r, In r rows <-> r = p \/ In r rest).
Proof.
  revert p rest; induction rows as [|r rows IH]; cbn; intros p rest H; [discriminate|]. revert H. numR.
  destruct (Reqb_spec (hd 0 (fst r)) 0) as [E|E].
  - destruct (pivot rows) as [[p' rest']|] eqn:Ep; [|discriminate]. intros [= <- <-].
    destruct (IH _ _ eq_refl) as (A & B & C). split; auto. split; [cbn; lia|]. intros r'. rewrite C. cbn. tauto.
  - intros [= <- <-]. split; auto. split; auto. intros r'. intuition congruence.
Qed.
Lemma axpy_length f p (r : list R) : length p = length r -> length (axpy f p r) = length r.
Proof. intros H. unfold axpy. rewrite zipw_length. lia. Qed.
Lemma nth_axpy f p (r : list R) i : length p = length r -> nth i (axpy f p r) 0 = nth i r 0 - f * nth i p 0.
Proof.
  intros H. destruct (Nat.lt_ge_cases i (length r)) as [Hi|Hi].
  - unfold axpy. rewrite (nth_zipw _ _ _ _ 0 0) by lia. numR. reflexivity.
  - rewrite !nth_overflow by (rewrite ?axpy_length; lia). ring.
Qed.
Lemma vdot_axpy f p r v : length p = length r -> vdot (axpy f p r) v = vdot r v - f * vdot p v.
Proof.
  unfold axpy. revert r v; induction p as [|a p IH]; intros [|b r] v H; cbn [zipw vdot length] in *; try lia; try ring.
  destruct v as [|c v]; [ring|]. rewrite IH by lia. numR. ring.
Qed.
Lemma hd_axpy f p (r : list R) : length p = length r -> hd 0 (axpy f p r) = hd 0 r - f * hd 0 p.
Proof. destruct p, r; cbn; intros; try lia; [ring|numR; reflexivity]. Qed.
Lemma hd_tl_vdot (a v : list R) x0 : a <> [] -> vdot a (x0 :: v) = hd 0 a * x0 + vdot (tl a) v.
Proof. destruct a; [congruence|]. reflexivity. Qed.
Lemma elim_ok n m p r : rowok (S n) m p -> rowok (S n) m r -> rowok n m (elim p r).
Proof.
  intros [P1 P2] [R1 R2]. split; cbn.
  - match goal with |- context [axpy ?f _ _] => pose proof (axpy_length f (fst p) (fst r) ltac:(lia)) as L;
      destruct (axpy f (fst p) (fst r)); cbn in *; lia end.
  - rewrite axpy_length; lia.
Qed.
Lemma elim_vdot n m p r v x0 : rowok (S n) m p -> rowok (S n) m r -> hd 0 (fst p) <> 0 ->
  vdot (fst p) (x0 :: v) = vdot (fst p) (x0 :: v) /\
  vdot (fst (elim p r)) v = vdot (fst r) (x0 :: v) - hd 0 (fst r) / hd 0 (fst p) * vdot (fst p) (x0 :: v).
Proof.
  intros [P1 P2] [R1 R2] Hp. split; auto. cbn [elim fst]. numR.
  set (f := hd 0 (fst r) / hd 0 (fst p)).
  assert (L := axpy_length f (fst p) (fst r) ltac:(lia)).
  rewrite <- vdot_axpy by lia. rewrite hd_tl_vdot.
  - rewrite hd_axpy by lia. unfold f. field_simplify; [ring|auto].
  - intros E. rewrite E in L. cbn in L. lia.
Qed.
(* column c of a list of rows *)
Definition col (x : list (list R)) (c : nat) : list R := map (fun r => nth c r 0) x.
Lemma ldot_vdot a x c : @ldot R _ a x c = vdot a (col x c).
Proof. revert x; induction a as [|a0 a IH]; intros [|x0 x]; cbn; auto. rewrite IH. numR. reflexivity. Qed.

Lemma gauss_sound n m : forall rows x, length rows = n -> (forall r, In r rows -> rowok n m r) ->
  gauss n rows = Ok x -> length x = n /\ (forall r, In r x -> length r = m) /\
  forall r c, In r rows -> (c < m)%nat -> vdot (fst r) (col x c) = nth c (snd r) 0.
Proof.
  induction n as [|n IH]; intros rows x HL HR E.
  - cbn in E. injection E as <-. split; auto. split; [intros r []|]. destruct rows; [intros r c []|discriminate].
  - cbn [gauss] in E. destruct (pivot rows) as [[p rest]|] eqn:Ep; [|discriminate].
    destruct (pivot_some _ _ _ Ep) as (Hp & HL' & HIn).
    destruct (gauss n (map (elim p) rest)) as [xs|] eqn:Eg; [|discriminate]. cbn [bind] in E. injection E as <-.
    assert (Rp : rowok (S n) m p) by (apply HR, HIn; auto).
    destruct (IH (map (elim p) rest) xs) as (L1 & L2 & SS); auto.
    { rewrite map_length. lia. }
    { intros r Hr. apply in_map_iff in Hr as (r' & <- & Hr'). apply elim_ok; auto. apply HR, HIn; auto. }
    split; [cbn; lia|]. split.
    { intros r [<-|Hr]; auto. rewrite map_length, seq_length. apply Rp. }
    assert (Sp : forall c, (c < m)%nat -> vdot (fst p) (col (map (fun c => ndiv (nsub (nth c (snd p) n0) (ldot (tl (fst p)) xs c)) (hd n0 (fst p)))
                      (seq 0 (length (snd p))) :: xs) c) = nth c (snd p) 0).
    { intros c Hc. cbn [col map]. rewrite hd_tl_vdot.
      2:{ intros E0. destruct Rp as [Rp _]. rewrite E0 in Rp. discriminate. }
      set (g := fun c0 => ndiv _ _).
      rewrite (nth_indep _ 0 (g 0%nat)) by (rewrite map_length, seq_length; destruct Rp; lia).
      rewrite map_nth, seq_nth by (destruct Rp; lia). unfold g. rewrite ldot_vdot. numR. cbn [Nat.add].
      fold (col xs c). field. exact Hp. }
    intros r c Hr Hc. apply HIn in Hr as [->|Hr]; [apply Sp; auto|].
    assert (Rr : rowok (S n) m r) by (apply HR, HIn; auto).
    specialize (SS (elim p r) c (in_map _ _ _ Hr) Hc). specialize (Sp c Hc). cbn [col map] in *.
    match goal with H : vdot (fst p) (?x0 :: _) = _ |- _ => destruct (elim_vdot n m p r (col xs c) x0 Rp Rr Hp) as [_ E2] end.
    unfold col in E2. rewrite Sp in E2. unfold col in SS. rewrite SS in E2. cbn [elim snd] in E2.
    rewrite nth_axpy in E2 by (destruct Rp, Rr; lia). revert E2. numR. intros E2. lra.
Qed.
(* a trivial kernel suffices *)
Lemma gauss_complete n m : forall rows, length rows = n -> (forall r, In r rows -> rowok n m r) ->
  (forall v, length v = n -> (forall r, In r rows -> vdot (fst r) v = 0) -> forall j, nth j v 0 = 0) ->
  exists x, gauss n rows = Ok x.
Proof.
  induction n as [|n IH]; intros rows HL HR HK; [eexists; reflexivity|]. cbn [gauss].
  destruct (pivot rows) as [[p rest]|] eqn:Ep.
  - destruct (pivot_some _ _ _ Ep) as (Hp & HL' & HIn).
    assert (Rp : rowok (S n) m p) by (apply HR, HIn; auto).
    destruct (IH (map (elim p) rest)) as (xs & Ex).
    { rewrite map_length. lia. }
    { intros r Hr. apply in_map_iff in Hr as (r' & <- & Hr'). apply elim_ok; auto. apply HR, HIn; auto. }
    { intros v Hv H0 j. set (x0 := - vdot (tl (fst p)) v / hd 0 (fst p)).
      assert (P0 : vdot (fst p) (x0 :: v) = 0).
      { rewrite hd_tl_vdot; [unfold x0; field; auto|]. intros E0. destruct Rp as [Rp _]. rewrite E0 in Rp. discriminate. }
      apply (HK (x0 :: v)) with (j := S j); [cbn; lia|].
      intros r Hr. apply HIn in Hr as [->|Hr]; [exact P0|].
      assert (Rr : rowok (S n) m r) by (apply HR, HIn; auto).
      specialize (H0 (elim p r) (in_map _ _ _ Hr)).
      destruct (elim_vdot n m p r v x0 Rp Rr Hp) as [_ E2]. rewrite P0, H0 in E2. lra. }
    rewrite Ex. cbn [bind]. eexists. reflexivity.
  - exfalso. assert (C := HK (1 :: repeat 0 n)). specialize (C ltac:(cbn; rewrite repeat_length; auto)).
    assert (1 = 0); [|lra]. apply (C ltac:(intros r Hr; pose proof (pivot_none _ Ep r Hr) as H0;
      rewrite hd_tl_vdot by (intros E0; destruct (HR r Hr) as [Rr _]; rewrite E0 in Rr; discriminate);
      rewrite H0; replace (vdot (tl (fst r)) (repeat 0 n)) with 0;
      [ring | symmetry; generalize (tl (fst r)); clear; induction n; intros [|a l]; cbn; auto; rewrite IHn; ring]) 0%nat).
Qed.

(* --- the matrix versions ----------------------------------------------------------- *)
Lemma vdot_rsum n (f g : nat -> R) s : vdot (map f (seq s n)) (map g (seq s n)) = rsum n (fun j => f (s + j)%nat * g (s + j)%nat).
Proof.
  revert s; induction n; intros s; [reflexivity|]. cbn [seq map vdot]. rewrite IHn, rsum_S_l. f_equal.
  - rewrite Nat.add_0_r. reflexivity.
  - apply rsum_ext. intros i Hi. rewrite Nat.add_succ_r. reflexivity.
Qed.
Lemma list_map_nth (v : list R) : v = map (fun j => nth j v 0) (seq 0 (length v)).
Proof.
  apply (nth_ext _ _ 0 0); [rewrite map_length, seq_length; auto|]. intros j Hj.
  rewrite (nth_indep (map _ _) 0 ((fun j => nth j v 0) 0%nat)) by (rewrite map_length, seq_length; auto).
  rewrite (map_nth (fun j => nth j v 0)), seq_nth by auto. reflexivity.
Qed.
Lemma gsolve_sound n a b x : nr b = n -> gsolve n a b = Ok x ->
  nr x = n /\ nc x = nc b /\
  forall i c, (i < n)%nat -> (c < nc b)%nat -> rsum n (fun j => a i j * at2 x j c) = at2 b i c.
Proof.
  intros Hb E. unfold gsolve in E.
  set (rows := map (fun i => (map (a i) (seq 0 n), row2 b i)) (seq 0 n)) in *.
  destruct (gauss n rows) as [xs|] eqn:Eg; [|discriminate]. cbn [bind] in E. injection E as <-.
  split; [reflexivity|]. split; [reflexivity|]. intros i c Hi Hc.
  destruct (gauss_sound n (nc b) rows xs) as (L1 & L2 & SS); auto.
  { unfold rows. rewrite map_length, seq_length. reflexivity. }
  { intros r Hr. unfold rows in Hr. apply in_map_iff in Hr as (k & <- & _). unfold rowok, row2. cbn.
    rewrite !map_length, !seq_length. auto. }
  specialize (SS (map (a i) (seq 0 n), row2 b i) c). cbn [fst snd] in SS.
  assert (In (map (a i) (seq 0 n), row2 b i) rows).
  { unfold rows. apply in_map_iff. exists i. split; auto. apply in_seq. lia. }
  specialize (SS H Hc). unfold row2 in SS.
  rewrite (nth_indep (map (at2 b i) _) 0 (at2 b i 0)) in SS by (rewrite map_length, seq_length; auto).
  rewrite (map_nth (at2 b i)), seq_nth in SS by auto. cbn [Nat.add] in SS. rewrite <- SS.
  assert (LC : length (col xs c) = n) by (unfold col; rewrite map_length; auto).
  rewrite (list_map_nth (col xs c)), LC, vdot_rsum.
  apply rsum_ext. intros j Hj. cbn [at2 Nat.add]. f_equal. unfold col.
  rewrite (nth_indep (map _ _) 0 ((fun r => nth c r 0) [])) by (rewrite map_length; lia).
  rewrite (map_nth (fun r => nth c r 0)). reflexivity.
Qed.
Lemma gsolve_complete n a b : nonsing n a -> exists x, gsolve n a b = Ok x.
Proof.
  intros HN. unfold gsolve. set (rows := map (fun i => (map (a i) (seq 0 n), row2 b i)) (seq 0 n)).
  destruct (gauss_complete n (nc b) rows) as (x & E).
  { unfold rows. rewrite map_length, seq_length. reflexivity. }
  { intros r Hr. unfold rows in Hr. apply in_map_iff in Hr as (k & <- & _). unfold rowok, row2. cbn.
    rewrite !map_length, !seq_length. auto. }
  { intros v Hv H0 j. destruct (Nat.lt_ge_cases j n) as [Hj|Hj]; [|apply nth_overflow; lia].
    apply (HN (fun j => nth j v 0)); auto. intros i Hi.
    specialize (H0 (map (a i) (seq 0 n), row2 b i)). cbn [fst] in H0.
    rewrite (list_map_nth v), Hv, vdot_rsum in H0. apply H0. unfold rows. apply in_map_iff. exists i. split; auto. apply in_seq. lia. }
  rewrite E. eexists. reflexivity.
Qed.
