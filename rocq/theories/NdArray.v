(* numpy n-d arrays: a shape and an element for every index.  Only elements at
   valid indices (Forall2 lt idx shape) are meaningful; two arrays are equal in
   the sense of [nd_eq] when shapes and all valid elements agree.  These are
   models of the numpy primitives that /repo/npplus calls (reshape, repeat,
   cumsum, broadcasting, slicing, concatenate, basic assignment). *)
From Coq Require Import List Arith ZArith Lia Bool.
From Verif Require Import Num PyBase.
Import ListNotations.

Record nd (A : Type) := Nd { shp : list nat; get : list nat -> A }.
Arguments Nd {A} shp get.
Arguments shp {A} n.
Arguments get {A} n _.

Definition ndim {A} (a : nd A) : nat := length (shp a).
Definition inb (idx s : list nat) : Prop := Forall2 lt idx s.
Definition nd_eq {A} (a b : nd A) : Prop :=
  shp a = shp b /\ forall idx, inb idx (shp a) -> get a idx = get b idx.

Definition size (s : list nat) : nat := fold_right Nat.mul 1 s.
Definition scalar {A} (x : A) : nd A := Nd [] (fun _ => x).
Definition full {A} (s : list nat) (x : A) : nd A := Nd s (fun _ => x).
(* 1-d array from a list *)
Definition vec {A} (d : A) (l : list A) : nd A :=
  Nd [length l] (fun idx => nth (hd 0 idx) l d).

(* C-order offset of an index, and back *)
Fixpoint ravel (s idx : list nat) : nat :=
  match s, idx with
  | d :: s', i :: idx' => i * size s' + ravel s' idx'
  | _, _ => 0
  end.
Fixpoint unravel (s : list nat) (k : nat) : list nat :=
  match s with
  | [] => []
  | d :: s' => k / size s' :: unravel s' (k mod size s')
  end.

(* ndarray.reshape with an explicit shape of equal size *)
Definition reshape {A} (s : list nat) (a : nd A) : res (nd A) :=
  if size s =? size (shp a) then
    Ok (Nd s (fun idx => get a (unravel (shp a) (ravel s idx))))
  else Err ValueError.

(* broadcasting of shapes, right aligned *)
Definition bdim (a b : nat) : option nat :=
  if a =? b then Some a else if a =? 1 then Some b else if b =? 1 then Some a else None.
Fixpoint brev (s t : list nat) : option (list nat) :=
  match s, t with
  | [], _ => Some t
  | _, [] => Some s
  | a :: s', b :: t' =>
    match bdim a b, brev s' t' with
    | Some d, Some r => Some (d :: r)
    | _, _ => None
    end
  end.
Definition bshape (s t : list nat) : option (list nat) :=
  option_map (@rev nat) (brev (rev s) (rev t)).
(* index into an operand of shape s for index idx of the broadcast result *)
Definition bidx (s idx : list nat) : list nat :=
  zipw (fun d i => if d =? 1 then 0 else i) s (skipn (length idx - length s) idx).
Definition bget {A} (a : nd A) (idx : list nat) : A := get a (bidx (shp a) idx).
(* elementwise binary operation *)
Definition nd_map2 {A B C} (f : A -> B -> C) (a : nd A) (b : nd B) : res (nd C) :=
  match bshape (shp a) (shp b) with
  | Some s => Ok (Nd s (fun idx => f (bget a idx) (bget b idx)))
  | None => Err ValueError
  end.
Definition nd_map {A B} (f : A -> B) (a : nd A) : nd B :=
  Nd (shp a) (fun idx => f (get a idx)).
(* may an array of shape s be assigned to (or broadcast to) shape t? *)
Fixpoint bto_rev (s t : list nat) : bool :=
  match s, t with
  | [], _ => true
  | _ :: _, [] => false
  | a :: s', b :: t' => ((a =? b) || (a =? 1)) && bto_rev s' t'
  end.
Definition bto (s t : list nat) : bool := bto_rev (rev s) (rev t).

(* np.repeat(a, n, axis=k) *)
Definition nd_repeat {A} (n k : nat) (a : nd A) : nd A :=
  Nd (upd k (nth k (shp a) 0 * n) (shp a))
     (fun idx => get a (upd k (nth k idx 0 / n) idx)).
(* a.cumsum(axis=k) *)
Fixpoint cums {K} {NK : Num K} (f : nat -> K) (j : nat) : K :=
  match j with O => f O | S j' => nadd (cums f j') (f j) end.
Definition nd_cumsum {K} {NK : Num K} (k : nat) (a : nd K) : nd K :=
  Nd (shp a) (fun idx => cums (fun j => get a (upd k j idx)) (nth k idx 0)).
(* a[..., lo:lo+len, ...] along axis k (bounds already resolved) *)
Definition nd_slice {A} (k lo len : nat) (a : nd A) : nd A :=
  Nd (upd k len (shp a)) (fun idx => get a (upd k (lo + nth k idx 0) idx)).
(* integer index along axis k (drops the axis) *)
Fixpoint insert_at {A} (k : nat) (v : A) (l : list A) : list A :=
  match k, l with
  | O, _ => v :: l
  | S k', a :: r => a :: insert_at k' v r
  | S _, [] => [v]
  end.
Fixpoint remove_at {A} (k : nat) (l : list A) : list A :=
  match k, l with
  | _, [] => []
  | O, _ :: r => r
  | S k', a :: r => a :: remove_at k' r
  end.
Definition nd_take {A} (k i : nat) (a : nd A) : nd A :=
  Nd (remove_at k (shp a)) (fun idx => get a (insert_at k i idx)).
(* assignment a[.., lo:lo+len, ..] = v with broadcasting of v to the region *)
Definition nd_setslice {A} (k lo len : nat) (v : nd A) (a : nd A) : res (nd A) :=
  if bto (shp v) (upd k len (shp a)) then
    Ok (Nd (shp a)
           (fun idx => let i := nth k idx 0 in
              if (lo <=? i) && (i <? lo + len)
              then bget v (upd k (i - lo) idx) else get a idx))
  else Err ValueError.
(* assignment a[.., i, ..] = v (axis k dropped in the region) *)
Definition nd_setitem {A} (k i : nat) (v : nd A) (a : nd A) : res (nd A) :=
  if bto (shp v) (remove_at k (shp a)) then
    Ok (Nd (shp a)
           (fun idx => if nth k idx 0 =? i then bget v (remove_at k idx) else get a idx))
  else Err ValueError.

Ltac inv H := inversion H; subst; clear H.

Lemma inb_length idx s : inb idx s -> length idx = length s.
Proof. induction 1; cbn; auto. Qed.
Lemma inb_nth idx s k : inb idx s -> k < length s -> nth k idx 0 < nth k s 0.
Proof.
  intros H; revert k; induction H; cbn; intros k Hk; [lia|].
  destruct k; auto. apply IHForall2. lia.
Qed.
Lemma inb_upd idx s k v : inb idx s -> v < nth k s 0 -> inb (upd k v idx) s.
Proof.
  intros H; revert k; induction H; cbn; intros k Hv.
  - destruct k; constructor.
  - destruct k; constructor; auto; apply IHForall2; auto.
Qed.
Lemma size_pos_inb idx s : inb idx s -> 0 < size s.
Proof. induction 1; cbn; [lia|]. fold (size l') in *. nia. Qed.
Lemma ravel_lt s idx : inb idx s -> ravel s idx < size s.
Proof.
  induction 1; cbn; [lia|].
  assert (x * size l' + size l' <= y * size l').
  { change (x * size l' + size l') with (x * size l' + size l').
    replace (x * size l' + size l') with ((S x) * size l') by lia.
    apply Nat.mul_le_mono_r. lia. }
  fold (size l'). lia.
Qed.
Lemma unravel_ravel s idx : inb idx s -> unravel s (ravel s idx) = idx.
Proof.
  induction 1; cbn; [reflexivity|].
  pose proof (ravel_lt _ _ H0). fold (size l').
  assert (size l' <> 0) by lia.
  assert (E1 : (x * size l' + ravel l' l) / size l' = x)
    by (rewrite Nat.div_add_l, Nat.div_small by auto; lia).
  assert (E2 : (x * size l' + ravel l' l) mod size l' = ravel l' l)
    by (rewrite Nat.add_comm, Nat.mod_add, Nat.mod_small by auto; lia).
  rewrite E1, E2, IHForall2. reflexivity.
Qed.
Lemma inb_unravel s k : k < size s -> inb (unravel s k) s.
Proof.
  revert k; induction s as [|d s IH]; cbn; intros k H; [constructor|].
  fold (size s) in *. assert (size s <> 0) by nia.
  constructor.
  - apply Nat.div_lt_upper_bound; lia.
  - apply IH. apply Nat.mod_upper_bound; auto.
Qed.
Lemma ravel_unravel s k : k < size s -> ravel s (unravel s k) = k.
Proof.
  revert k; induction s as [|d s IH]; cbn; intros k H; [lia|].
  fold (size s) in *. assert (size s <> 0) by nia.
  rewrite IH by (apply Nat.mod_upper_bound; auto).
  rewrite (Nat.div_mod k (size s)) at 3; lia.
Qed.
Lemma bdim_comm a b : bdim a b = bdim b a.
Proof.
  unfold bdim. rewrite (Nat.eqb_sym b a).
  destruct (Nat.eqb_spec a b); [congruence|].
  destruct (Nat.eqb_spec a 1), (Nat.eqb_spec b 1); congruence.
Qed.
Lemma bdim_refl a : bdim a a = Some a.
Proof. unfold bdim; rewrite Nat.eqb_refl; reflexivity. Qed.
Lemma brev_comm s t : brev s t = brev t s.
Proof.
  revert t; induction s as [|a s IH]; intros [|b t]; cbn; auto.
  rewrite bdim_comm, IH. reflexivity.
Qed.
Lemma bshape_comm s t : bshape s t = bshape t s.
Proof. unfold bshape; rewrite brev_comm; reflexivity. Qed.
Lemma brev_refl s : brev s s = Some s.
Proof. induction s as [|a s IH]; cbn; auto. rewrite bdim_refl, IH. reflexivity. Qed.
Lemma bshape_refl s : bshape s s = Some s.
Proof. unfold bshape; rewrite brev_refl; cbn. rewrite rev_involutive. reflexivity. Qed.
Lemma bshape_nil_l s : bshape [] s = Some s.
Proof. unfold bshape; cbn. rewrite rev_involutive. reflexivity. Qed.
Lemma bshape_nil_r s : bshape s [] = Some s.
Proof. rewrite bshape_comm. apply bshape_nil_l. Qed.
Lemma bidx_self s idx : inb idx s -> bidx s idx = idx.
Proof.
  intros H. unfold bidx. rewrite (inb_length _ _ H), Nat.sub_diag. cbn.
  induction H; cbn; auto. rewrite IHForall2.
  destruct (Nat.eqb_spec y 1); [|reflexivity]. f_equal. lia.
Qed.
Lemma bidx_nil idx : bidx [] idx = [].
Proof. reflexivity. Qed.
