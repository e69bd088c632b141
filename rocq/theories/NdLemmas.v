(* Facts about the array primitives of NdArray.v. *)
From Coq Require Import List Arith ZArith Lia Bool.
From Verif Require Import Num PyBase NdArray.
Import ListNotations.

(* --- broadcasting ------------------------------------------------------ *)
Definition bsel (d i : nat) : nat := if d =? 1 then 0 else i.
Lemma bto_rev_refl' s : bto_rev s s = true.
Proof. induction s; cbn; auto. rewrite Nat.eqb_refl. auto. Qed.
Lemma bto_refl' s : bto s s = true.
Proof. apply bto_rev_refl'. Qed.
Lemma bto_rev_length s t : bto_rev s t = true -> length s <= length t.
Proof.
  revert t; induction s as [|a s IH]; intros [|b t]; cbn; intros H; try lia; try discriminate.
  apply andb_prop in H as [_ H]. apply IH in H. lia.
Qed.
Lemma bto_length s t : bto s t = true -> length s <= length t.
Proof. intros H; apply bto_rev_length in H. rewrite !rev_length in H. auto. Qed.
Lemma zipw_rev {A B C} (f : A -> B -> C) l m :
  length l = length m -> rev (zipw f l m) = zipw f (rev l) (rev m).
Proof.
  assert (App : forall (l1 : list A) (m1 : list B) l2 m2, length l1 = length m1 ->
            zipw f (l1 ++ l2) (m1 ++ m2) = zipw f l1 m1 ++ zipw f l2 m2).
  { induction l1; intros [|b m1] l2 m2 H; cbn in *; try discriminate; auto.
    f_equal. apply IHl1. lia. }
  revert m; induction l as [|a l IH]; intros [|b m] H; cbn in *; try discriminate; auto.
  rewrite IH by lia. rewrite App by (rewrite !rev_length; lia). reflexivity.
Qed.
Lemma zipw_firstn_r {A B C} (f : A -> B -> C) l m :
  zipw f l (firstn (length l) m) = zipw f l m.
Proof. revert m; induction l; intros [|b m]; cbn; auto. f_equal; auto. Qed.
Lemma bidx_rev s idx :
  length s <= length idx -> bidx s idx = rev (zipw bsel (rev s) (rev idx)).
Proof.
  intros H. unfold bidx.
  rewrite <- (rev_involutive (zipw _ s _)). f_equal.
  change (fun d i : nat => if d =? 1 then 0 else i) with bsel.
  rewrite zipw_rev by (rewrite skipn_length; lia).
  replace (rev (skipn (length idx - length s) idx)) with (firstn (length (rev s)) (rev idx)).
  - apply zipw_firstn_r.
  - rewrite rev_length, firstn_rev. reflexivity.
Qed.
Lemma bidx_length s idx : length s <= length idx -> length (bidx s idx) = length s.
Proof. intros H. unfold bidx. rewrite zipw_length, skipn_length. lia. Qed.

Lemma Forall2_app_lt (l1 l2 m1 m2 : list nat) :
  Forall2 lt l1 m1 -> Forall2 lt l2 m2 -> Forall2 lt (l1 ++ l2) (m1 ++ m2).
Proof. induction 1; cbn; auto. Qed.
Lemma inb_rev idx s : inb idx s -> inb (rev idx) (rev s).
Proof.
  induction 1; cbn; [constructor|].
  apply Forall2_app_lt; [assumption|constructor; auto].
Qed.
Lemma inb_bidx_rev s t idx :
  bto_rev s t = true -> inb idx t -> inb (zipw bsel s idx) s.
Proof.
  intros H Hi; revert s H; induction Hi; intros [|a s] H0; cbn in *; try discriminate; try constructor.
  - apply andb_prop in H0 as [H0 _]. unfold bsel.
    destruct (Nat.eqb_spec a 1); [lia|].
    destruct (Nat.eqb_spec a y); cbn in H0; [lia|discriminate].
  - apply andb_prop in H0 as [_ H0]. apply IHHi; auto.
Qed.
Lemma inb_bidx s t idx : bto s t = true -> inb idx t -> inb (bidx s idx) s.
Proof.
  intros H Hi. rewrite bidx_rev.
  - rewrite <- (rev_involutive s) at 2. apply inb_rev.
    eapply inb_bidx_rev; [exact H|]. apply inb_rev; auto.
  - rewrite (inb_length _ _ Hi). apply bto_length; auto.
Qed.
Lemma bidx_bidx s t idx :
  bto s t = true -> length t <= length idx -> bidx s (bidx t idx) = bidx s idx.
Proof.
  intros H Hl. pose proof (bto_length _ _ H).
  rewrite (bidx_rev s (bidx t idx)) by (rewrite bidx_length; lia).
  rewrite (bidx_rev s idx) by lia. rewrite (bidx_rev t idx) by lia.
  f_equal. rewrite rev_involutive.
  unfold bto in H. revert H.
  generalize (rev s) (rev t) (rev idx). clear.
  induction l as [|a s IH]; intros [|b t] [|i idx] H; cbn in *; auto; try discriminate.
  apply andb_prop in H as [H1 H2]. rewrite IH by auto. f_equal.
  unfold bsel. destruct (Nat.eqb_spec a 1); auto.
  destruct (Nat.eqb_spec a b); cbn in H1; [|discriminate].
  destruct (Nat.eqb_spec b 1); congruence.
Qed.
Lemma bdim_bto a b d : bdim a b = Some d ->
  (a = d \/ a = 1) /\ (b = d \/ b = 1) /\ (d = a \/ d = b).
Proof.
  unfold bdim. destruct (Nat.eqb_spec a b); [intros [= <-]; subst; auto|].
  destruct (Nat.eqb_spec a 1); [intros [= <-]; auto|].
  destruct (Nat.eqb_spec b 1); [intros [= <-]; auto|discriminate].
Qed.
Lemma brev_bto s t u : brev s t = Some u -> bto_rev s u = true /\ bto_rev t u = true.
Proof.
  revert t u; induction s as [|a s IH]; intros [|b t] u; cbn.
  - intros [= <-]; auto.
  - intros [= <-]; cbn. rewrite Nat.eqb_refl. split; auto. apply bto_rev_refl'.
  - intros [= <-]; cbn. rewrite Nat.eqb_refl. split; auto. apply bto_rev_refl'.
  - destruct (bdim a b) as [d|] eqn:E; [|discriminate].
    destruct (brev s t) as [r|] eqn:E2; [|discriminate].
    intros [= <-]. apply IH in E2 as [H1 H2]. cbn.
    apply bdim_bto in E as (A1 & A2 & _).
    split; apply andb_true_intro; split; auto; apply orb_true_iff; rewrite !Nat.eqb_eq; auto.
Qed.
Lemma bshape_bto s t u : bshape s t = Some u -> bto s u = true /\ bto t u = true.
Proof.
  unfold bshape, bto. destruct (brev (rev s) (rev t)) eqn:E; cbn; [|discriminate].
  intros [= <-]. rewrite rev_involutive. apply brev_bto; auto.
Qed.
Lemma bshape_of_bto s t : bto s t = true -> bshape t s = Some t.
Proof.
  intros H. unfold bto in H.
  unfold bshape. replace (brev (rev t) (rev s)) with (Some (rev t)); cbn; [rewrite rev_involutive; auto|].
  revert H. generalize (rev s) (rev t). clear.
  induction l as [|a s IH]; intros [|b t] H; cbn in *; auto; try discriminate.
  apply andb_prop in H as [H1 H2]. rewrite <- IH by auto.
  unfold bdim. destruct (Nat.eqb_spec b a); [subst; auto|].
  destruct (Nat.eqb_spec a b); [congruence|]. cbn in H1. rewrite H1.
  apply Nat.eqb_eq in H1. subst.
  destruct (Nat.eqb_spec b 1); congruence.
Qed.
Lemma bget_self {A} (a : nd A) idx : inb idx (shp a) -> bget a idx = get a idx.
Proof. intros H. unfold bget. rewrite bidx_self; auto. Qed.
Lemma bget_bget {A} (a : nd A) t idx :
  bto (shp a) t = true -> length t <= length idx -> bget a (bidx t idx) = bget a idx.
Proof. intros. unfold bget. rewrite bidx_bidx; auto. Qed.
Lemma nd_map2_same {A B C} (f : A -> B -> C) a b s :
  shp a = s -> shp b = s ->
  nd_map2 f a b = Ok (Nd s (fun idx => f (bget a idx) (bget b idx))).
Proof. intros <- E. unfold nd_map2. rewrite E, bshape_refl. reflexivity. Qed.

(* dimensions from the right *)
Definition dimr (s : list nat) (m : nat) : nat := nth m (rev s) 1.
Lemma brev_some_iff s t u : brev s t = Some u <->
  length u = Nat.max (length s) (length t) /\
  forall m, bdim (nth m s 1) (nth m t 1) = Some (nth m u 1).
Proof.
  assert (B1 : forall b, bdim 1 b = Some b) by (intros b; unfold bdim; destruct (Nat.eqb_spec 1 b); subst; auto).
  assert (Nn : forall m, nth m (@nil nat) 1 = 1) by (destruct m; auto).
  revert t u; induction s as [|a s IH]; intros t u.
  - cbn [brev length Nat.max]. split.
    + intros [= <-]. split; auto. intros m. rewrite Nn. auto.
    + intros [H1 H2]. f_equal. apply nth_ext with (d:=1) (d':=1); auto.
      intros m _. specialize (H2 m). rewrite Nn, B1 in H2. congruence.
  - destruct t as [|b t].
    + cbn [brev length]. rewrite Nat.max_0_r. split.
      * intros [= <-]. split; auto. intros m. rewrite Nn, bdim_comm. auto.
      * intros [H1 H2]. f_equal. apply nth_ext with (d:=1) (d':=1); auto.
        intros m _. specialize (H2 m). rewrite Nn, bdim_comm, B1 in H2. congruence.
    + cbn [brev length]. split.
      * destruct (bdim a b) as [d|] eqn:E; [|discriminate].
        destruct (brev s t) as [r|] eqn:E2; [|discriminate].
        intros [= <-]. apply IH in E2 as [L1 L2]. cbn [length]. split; [lia|].
        intros [|m]; cbn; auto.
      * intros [H1 H2]. destruct u as [|d u]; [cbn in H1; lia|].
        rewrite (H2 0 : bdim a b = Some d).
        replace (brev s t) with (Some u); auto. symmetry. apply IH.
        cbn in H1. split; [lia|]. intros m. apply (H2 (S m)).
Qed.
Lemma bshape_some_iff s t u : bshape s t = Some u <->
  length u = Nat.max (length s) (length t) /\
  forall m, bdim (dimr s m) (dimr t m) = Some (dimr u m).
Proof.
  unfold bshape, dimr. split.
  - destruct (brev (rev s) (rev t)) as [r|] eqn:E; cbn; [|discriminate].
    intros [= <-]. apply brev_some_iff in E. rewrite !rev_length in E. rewrite rev_length, rev_involutive. auto.
  - intros [H1 H2]. replace (brev (rev s) (rev t)) with (Some (rev u)); cbn; [rewrite rev_involutive; auto|].
    symmetry. apply brev_some_iff. rewrite !rev_length. auto.
Qed.
Lemma bto_iff s t : bto s t = true <->
  length s <= length t /\ forall m, m < length s -> dimr s m = dimr t m \/ dimr s m = 1.
Proof.
  unfold bto, dimr. rewrite <- (rev_length s), <- (rev_length t).
  generalize (rev s) (rev t). clear. induction l as [|a s IH]; intros t.
  - cbn. split; auto. intros _. split; [lia|]. intros; lia.
  - destruct t as [|b t]; cbn.
    + split; [discriminate|]. intros [H _]; lia.
    + rewrite andb_true_iff, orb_true_iff, !Nat.eqb_eq, IH. split.
      * intros (H1 & H2 & H3). split; [lia|]. intros [|m] Hm; auto. apply H3; lia.
      * intros (H1 & H2). split; [apply (H2 0); lia|]. split; [lia|].
        intros m Hm. apply (H2 (S m)). lia.
Qed.

(* --- insert, remove, update -------------------------------------------- *)
Lemma insert_at_length {A} k (v : A) l : length (insert_at k v l) = S (length l).
Proof. revert k; induction l; destruct k; cbn; auto. Qed.
Lemma nth_insert_eq {A} k (v d : A) l : k <= length l -> nth k (insert_at k v l) d = v.
Proof. revert k; induction l; destruct k; cbn; intros; auto; try lia. apply IHl; lia. Qed.
Lemma upd_insert {A} k (v w : A) l : k <= length l -> upd k w (insert_at k v l) = insert_at k w l.
Proof. revert k; induction l; destruct k; cbn; intros; auto; try lia. f_equal. apply IHl; lia. Qed.
Lemma remove_insert {A} k (v : A) l : k <= length l -> remove_at k (insert_at k v l) = l.
Proof. revert k; induction l; destruct k; cbn; intros; auto; try lia. f_equal. apply IHl; lia. Qed.
Lemma insert_firstn {A} k (v : A) l : k <= length l -> firstn k l ++ [v] ++ skipn k l = insert_at k v l.
Proof. revert k; induction l; destruct k; cbn; intros; auto; try lia. f_equal. apply IHl; lia. Qed.
Lemma inb_insert k i idx n s : k <= length s -> inb idx s -> i < n -> inb (insert_at k i idx) (insert_at k n s).
Proof.
  intros Hk H; revert k Hk; induction H; destruct k; cbn; intros; try lia.
  - constructor; auto; constructor.
  - constructor; auto.
  - constructor; auto. apply IHForall2; lia.
Qed.
Lemma inb_insert_inv k n s idx : k <= length s -> inb idx (insert_at k n s) ->
  exists i idx', idx = insert_at k i idx' /\ i < n /\ inb idx' s.
Proof.
  revert k idx; induction s as [|d s IH]; intros k idx Hk H.
  - assert (k = 0) by (cbn in Hk; lia). subst. cbn in H. inv H. inv H4.
    exists x, []. repeat split; auto. constructor.
  - destruct k; cbn in *.
    + inv H. exists x, l. repeat split; auto.
    + inv H. apply IH in H4 as (i & idx' & -> & Hi & Hx); [|lia].
      exists i, (x :: idx'). repeat split; auto. constructor; auto.
Qed.
Lemma size_insert k n s : k <= length s -> size (insert_at k n s) = n * size s.
Proof.
  revert k; induction s as [|d s IH]; destruct k; cbn; intros; auto; try lia.
  unfold size in *. rewrite IH by lia. lia.
Qed.
Lemma ravel_insert k idx s : k <= length s -> length idx = length s ->
  ravel (insert_at k 1 s) (insert_at k 0 idx) = ravel s idx.
Proof.
  revert k idx; induction s as [|d s IH]; intros k [|i idx] Hk Hl; cbn in *; try discriminate.
  - destruct k; cbn; lia.
  - destruct k; cbn; [lia|]. rewrite IH by lia. f_equal. f_equal. rewrite size_insert by lia. lia.
Qed.
Lemma reshape_insert {A} k (a : nd A) : k <= length (shp a) ->
  exists b, reshape (firstn k (shp a) ++ [1] ++ skipn k (shp a)) a = Ok b /\
    shp b = insert_at k 1 (shp a) /\
    forall idx, inb idx (shp a) -> get b (insert_at k 0 idx) = get a idx.
Proof.
  intros Hk. rewrite insert_firstn by auto. unfold reshape.
  rewrite size_insert, Nat.mul_1_l, Nat.eqb_refl by auto.
  eexists. split; [reflexivity|]. split; [reflexivity|]. intros idx Hi. cbn.
  rewrite ravel_insert by (auto; apply (inb_length _ _ Hi)). rewrite unravel_ravel; auto.
Qed.
Lemma py_index_lt n k z : py_index n z = Some k -> k < n.
Proof.
  unfold py_index. destruct (Z.ltb_spec z 0).
  - destruct (Z.ltb_spec (Z.of_nat n + z) 0); [discriminate|]. intros [= <-]. lia.
  - destruct (Z.ltb_spec z (Z.of_nat n)); [|discriminate]. intros [= <-]. lia.
Qed.
