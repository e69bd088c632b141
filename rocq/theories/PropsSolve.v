(* Properties C24-C26: periodic and symmetric banded solves. *)
From Coq Require Import List Arith ZArith Lia Bool Reals Lra.
From Verif Require Import Num PyBase PwPoly RSum SolvePer SolveProofs Gauss.
Import ListNotations.
Local Open Scope R_scope.

(* --- specification -------------------------------------------------------------- *)
(* the matrix scipy's solve_banded reads from diagonal ordered form *)
Definition band (l u : nat) (ab : arr2 R) (i j : nat) : R :=
  if ((j <=? i + u) && (i <=? j + l))%nat then at2 ab (u + i - j) j else 0.
(* the full cyclic matrix described by ab: row r of column j holds the entry of
   equation r+j-u modulo n *)
Definition cyc (l u : nat) (ab : arr2 R) (i j : nat) : R :=
  rsum (l + u + 1) (fun r => if ((r + j + nc ab - u) mod nc ab =? i)%nat then at2 ab r j else 0).
(* x solves a x = b, column by column *)
Definition solves (n : nat) (a : nat -> nat -> R) (x b : arr2 R) : Prop :=
  nr x = n /\ nc x = nc b /\
  forall i c, (i < n)%nat -> (c < nc b)%nat -> rsum n (fun j => a i j * at2 x j c) = at2 b i c.
(* what is assumed of the scipy routines: a returned result solves the system *)
Definition banded_spec (sb : nat -> nat -> arr2 R -> arr2 R -> res (arr2 R)) : Prop :=
  forall l u ab b x, nr ab = (l + u + 1)%nat -> nr b = nc ab -> sb l u ab b = Ok x ->
  solves (nc ab) (band l u ab) x b.
Definition dense_spec (s : arr2 R -> arr2 R -> res (arr2 R)) : Prop :=
  forall a b x, nr a = nc a -> nr b = nr a -> s a b = Ok x -> solves (nr a) (at2 a) x b.

(* ... and they succeed on nonsingular systems (nonsing: the kernel is trivial, Gauss.v) *)
Definition banded_complete (sb : nat -> nat -> arr2 R -> arr2 R -> res (arr2 R)) : Prop :=
  forall l u ab b, nr ab = (l + u + 1)%nat -> nr b = nc ab -> nonsing (nc ab) (band l u ab) ->
  exists x, sb l u ab b = Ok x.
Definition dense_complete (s : arr2 R -> arr2 R -> res (arr2 R)) : Prop :=
  forall a b, nr a = nc a -> nr b = nr a -> nonsing (nr a) (at2 a) -> exists x, s a b = Ok x.
(* exact Gaussian elimination meets all four assumptions *)
Theorem gauss_meets_specs :
  banded_spec gbanded /\ dense_spec gdense /\ banded_complete gbanded /\ dense_complete gdense.
Proof.
  split; [|split; [|split]].
  - intros l u ab b x H1 H2 E. unfold gbanded in E. rewrite <- H1, H2, !Nat.eqb_refl in E. cbn [andb] in E.
    apply gsolve_sound in E; auto.
  - intros a b x H1 H2 E. unfold gdense in E. rewrite <- H1, H2, !Nat.eqb_refl in E. cbn [andb] in E.
    apply gsolve_sound in E; auto.
  - intros l u ab b H1 H2 E. unfold gbanded. rewrite <- H1, H2, !Nat.eqb_refl. apply gsolve_complete. exact E.
  - intros a b H1 H2 E. unfold gdense. rewrite <- H1, H2, !Nat.eqb_refl. apply gsolve_complete. exact E.
Qed.

(* --- C26 --------------------------------------------------------------------------- *)
Theorem C26_diag_to_norm l u (ab : arr2 R) :
  (nr ab = u + 1 + l -> u <= nc ab -> exists a, diag_to_norm l u ab = Ok a /\ nr a = nc ab /\ nc a = nc ab /\
     forall i j, (i < nc ab)%nat -> (j < nc ab)%nat ->
       ((i <= j + l)%nat /\ (j <= i + u)%nat -> at2 a i j = at2 ab (u + i - j) j) /\
       (~ ((i <= j + l)%nat /\ (j <= i + u)%nat) -> at2 a i j = 0%R))%nat /\
  (nr ab <> (u + 1 + l)%nat -> diag_to_norm l u ab = Err ValueError).
Proof.
  split.
  - intros Hn Hu. destruct (diag_to_norm_ok l u ab Hn Hu) as (a & E & R1 & R2 & G).
    exists a. repeat split; auto.
    + intros [H1 H2]. rewrite G by auto. destruct (Nat.leb_spec i (j + l)); [|lia]. destruct (Nat.leb_spec j (i + u)); [reflexivity|lia].
    + intros H'. rewrite G by auto. destruct (Nat.leb_spec i (j + l)); [|reflexivity]. destruct (Nat.leb_spec j (i + u)); [lia|reflexivity].
  - intros Hn. unfold diag_to_norm. destruct (Nat.eqb_spec (nr ab) (u + 1 + l)); [congruence|reflexivity].
Qed.

(* --- the corner matrix --------------------------------------------------------------- *)
Lemma per_mask_eq n l u : (0 < n)%nat -> (l + u <= n)%nat -> per_mask n l (l + u) = seq 0 u ++ seq (n - l) l.
Proof.
  intros Hn Hlu. unfold per_mask.
  replace (seq 0 n) with (seq 0 u ++ seq u (n - l - u) ++ seq (n - l) l).
  2:{ replace n with (u + ((n - l - u) + l))%nat at 3 by lia. rewrite !seq_app. do 2 f_equal. f_equal. lia. }
  rewrite !filter_app.
  assert (F1 : forall a m, (forall i, (a <= i < a + m)%nat -> ((i + l) mod n <? l + u)%nat = true) ->
     filter (fun i => ((i + l) mod n <? l + u)%nat) (seq a m) = seq a m).
  { intros a m. revert a; induction m; intros a H; cbn [seq filter]; auto. rewrite H by lia. f_equal. apply IHm. intros; apply H; lia. }
  assert (F2 : forall a m, (forall i, (a <= i < a + m)%nat -> ((i + l) mod n <? l + u)%nat = false) ->
     filter (fun i => ((i + l) mod n <? l + u)%nat) (seq a m) = []).
  { intros a m. revert a; induction m; intros a H; cbn [seq filter]; auto. rewrite H by lia. apply IHm. intros; apply H; lia. }
  rewrite F1, F2, F1; auto.
  - intros i Hi. apply Nat.ltb_lt. replace (i + l)%nat with ((i + l - n) + 1 * n)%nat by lia.
    rewrite Nat.mod_add, Nat.mod_small by lia. lia.
  - intros i Hi. apply Nat.ltb_ge. rewrite Nat.mod_small by lia. lia.
  - intros i Hi. apply Nat.ltb_lt. rewrite Nat.mod_small by lia. lia.
Qed.
(* the variable held at position m of the mask, and the equation of corner row q *)
Definition mvar (n l u m : nat) : nat := if (m <? u)%nat then m else (n - l + (m - u))%nat.
Lemma nth_mask n l u m : (0 < n)%nat -> (l + u <= n)%nat -> (m < l + u)%nat ->
  nth m (per_mask n l (l + u)) 0%nat = mvar n l u m.
Proof.
  intros Hn Hlu Hm. rewrite per_mask_eq by auto. unfold mvar. destruct (Nat.ltb_spec m u).
  - rewrite app_nth1 by (rewrite seq_length; auto). apply seq_nth; auto.
  - rewrite app_nth2 by (rewrite seq_length; lia). rewrite seq_length. apply seq_nth; lia.
Qed.
(* entry of the corner matrix *)
Definition corner (n l u : nat) (ab : arr2 R) (q m : nat) : R :=
  if (q <? l)%nat then
    (if (u <=? m)%nat then (if (q <=? m - u)%nat then at2 ab (l + u + q - (m - u)) (n - l + (m - u)) else 0) else 0)
  else (if (m <? u)%nat then (if (m <=? q - l)%nat then at2 ab (q - l - m) m else 0) else 0).
(* row of equation i in the corner matrix *)
Definition crow (n l u i : nat) : option nat :=
  if (i <? l)%nat then Some i else if (n - u <=? i)%nat then Some (l + (i - (n - u)))%nat else None.

(* one column of the cyclic matrix: band and corner part *)
Lemma cyc_split l u ab i j : (l + u <= nc ab)%nat -> (i < nc ab)%nat -> (j < nc ab)%nat ->
  cyc l u ab i j = band l u ab i j
    + (if ((nc ab - u <=? i) && (j + nc ab <=? u + i))%nat then at2 ab (u + i - j - nc ab) j else 0)
    + (if ((i <? l) && (nc ab + i <=? l + j))%nat then at2 ab (u + i + nc ab - j) j else 0).
Proof.
  intros Hlu Hi Hj. set (n := nc ab) in *. unfold cyc. fold n.
  rewrite (rsum_ext _ _ (fun r => (if (r =? u + i - j)%nat then (if (j <=? u + i)%nat then at2 ab r j else 0) else 0)
      + ((if (r =? u + i - j - n)%nat then (if (j + n <=? u + i)%nat then at2 ab r j else 0) else 0)
      + (if (r =? u + i + n - j)%nat then at2 ab r j else 0)))).
  - rewrite !rsum_plus, !rsum_delta. unfold band. rewrite <- Rplus_assoc. f_equal; [f_equal|].
    + destruct (Nat.ltb_spec (u + i - j) (l + u + 1)); destruct (Nat.leb_spec j (u + i));
      destruct (Nat.leb_spec j (i + u)); destruct (Nat.leb_spec i (j + l)); cbn [andb]; try lia; auto.
    + destruct (Nat.ltb_spec (u + i - j - n) (l + u + 1)); destruct (Nat.leb_spec (j + n) (u + i));
      destruct (Nat.leb_spec (n - u) i); cbn [andb]; try lia; auto.
    + destruct (Nat.ltb_spec (u + i + n - j) (l + u + 1)); destruct (Nat.ltb_spec i l);
      destruct (Nat.leb_spec (n + i) (l + j)); cbn [andb]; try lia; auto.
  - intros r Hr.
    assert (Hcase : (r + j < u \/ u <= r + j < u + n \/ u + n <= r + j)%nat) by lia.
    assert (M : ((r + j + n - u) mod n = if (r + j <? u)%nat then r + j + n - u else
                if (r + j <? u + n)%nat then r + j - u else r + j - u - n)%nat).
    { destruct (Nat.ltb_spec (r + j) u).
      - apply Nat.mod_small. lia.
      - destruct (Nat.ltb_spec (r + j) (u + n)).
        + replace (r + j + n - u)%nat with ((r + j - u) + 1 * n)%nat by lia. rewrite Nat.mod_add, Nat.mod_small; lia.
        + replace (r + j + n - u)%nat with ((r + j - u - n) + 2 * n)%nat by lia. rewrite Nat.mod_add, Nat.mod_small; lia. }
    rewrite M. destruct Hcase as [Hc|[Hc|Hc]].
    + destruct (Nat.ltb_spec (r + j) u); [|lia].
      destruct (Nat.eqb_spec (r + j + n - u) i) as [E|E].
      * destruct (Nat.eqb_spec r (u + i - j - n)); [|lia]. destruct (Nat.leb_spec (j + n) (u + i)); [|lia].
        destruct (Nat.eqb_spec r (u + i - j)); [lia|]. destruct (Nat.eqb_spec r (u + i + n - j)); [lia|]. lra.
      * destruct (Nat.eqb_spec r (u + i + n - j)); [lia|].
        destruct (Nat.eqb_spec r (u + i - j)); destruct (Nat.leb_spec j (u + i)); try lia;
        destruct (Nat.eqb_spec r (u + i - j - n)); destruct (Nat.leb_spec (j + n) (u + i)); try lia; lra.
    + destruct (Nat.ltb_spec (r + j) u); [lia|]. destruct (Nat.ltb_spec (r + j) (u + n)); [|lia].
      destruct (Nat.eqb_spec (r + j - u) i) as [E|E].
      * destruct (Nat.eqb_spec r (u + i - j)); [|lia]. destruct (Nat.leb_spec j (u + i)); [|lia].
        destruct (Nat.eqb_spec r (u + i + n - j)); [lia|].
        destruct (Nat.eqb_spec r (u + i - j - n)); destruct (Nat.leb_spec (j + n) (u + i)); try lia; lra.
      * destruct (Nat.eqb_spec r (u + i + n - j)); [lia|].
        destruct (Nat.eqb_spec r (u + i - j)); destruct (Nat.leb_spec j (u + i)); try lia;
        destruct (Nat.eqb_spec r (u + i - j - n)); destruct (Nat.leb_spec (j + n) (u + i)); try lia; lra.
    + destruct (Nat.ltb_spec (r + j) u); [lia|]. destruct (Nat.ltb_spec (r + j) (u + n)); [lia|].
      destruct (Nat.eqb_spec (r + j - u - n) i) as [E|E].
      * destruct (Nat.eqb_spec r (u + i + n - j)); [|lia].
        destruct (Nat.eqb_spec r (u + i - j)); destruct (Nat.leb_spec j (u + i)); try lia;
        destruct (Nat.eqb_spec r (u + i - j - n)); destruct (Nat.leb_spec (j + n) (u + i)); try lia; lra.
      * destruct (Nat.eqb_spec r (u + i + n - j)); [lia|].
        destruct (Nat.eqb_spec r (u + i - j)); destruct (Nat.leb_spec j (u + i)); try lia;
        destruct (Nat.eqb_spec r (u + i - j - n)); destruct (Nat.leb_spec (j + n) (u + i)); try lia; lra.
Qed.
(* the product with the cyclic matrix *)
Lemma cyc_apply l u ab (v : nat -> R) i : (l + u <= nc ab)%nat -> (i < nc ab)%nat ->
  let n := nc ab in
  rsum n (fun j => cyc l u ab i j * v j) = rsum n (fun j => band l u ab i j * v j)
    + match crow n l u i with
      | Some q => rsum (l + u) (fun m => corner n l u ab q m * v (mvar n l u m))
      | None => 0
      end.
Proof.
  intros Hlu Hi n.
  rewrite (rsum_ext _ _ (fun j => band l u ab i j * v j
     + ((if ((n - u <=? i) && (j + n <=? u + i))%nat then at2 ab (u + i - j - n) j else 0) * v j
     + (if ((i <? l) && (n + i <=? l + j))%nat then at2 ab (u + i + n - j) j else 0) * v j))).
  2:{ intros j Hj. rewrite cyc_split by auto. fold n. ring. }
  rewrite !rsum_plus. f_equal.
  assert (Sp : forall q, rsum (l + u) (fun m => corner n l u ab q m * v (mvar n l u m)) =
     rsum u (fun m => corner n l u ab q m * v m) + rsum l (fun t => corner n l u ab q (u + t) * v (n - l + t)%nat)).
  { intros q. rewrite (Nat.add_comm l u), rsum_split. f_equal; apply rsum_ext; intros t Ht; unfold mvar.
    - destruct (Nat.ltb_spec t u); [reflexivity|lia].
    - destruct (Nat.ltb_spec (u + t) u); [lia|]. do 2 f_equal. lia. }
  unfold crow. destruct (Nat.ltb_spec i l) as [Hil|Hil].
  - (* lower corner equations *)
    rewrite Sp. f_equal.
    + rewrite !rsum_zero; auto.
      * intros m Hm. unfold corner. destruct (Nat.ltb_spec i l); [|lia]. destruct (Nat.leb_spec u m); [lia|]. ring.
      * intros j Hj. destruct (Nat.leb_spec (n - u) i); cbn [andb]; [|ring].
        destruct (Nat.leb_spec (j + n) (u + i)); [|ring]. exfalso. lia.
    + replace n with ((n - l) + l)%nat at 1 by lia. rewrite rsum_split.
      rewrite (rsum_zero (n - l)).
      2:{ intros j Hj. cbn [andb]. destruct (Nat.leb_spec (n + i) (l + j)); [lia|ring]. }
      rewrite Rplus_0_l. apply rsum_ext. intros t Ht. f_equal. unfold corner. cbn [andb].
      destruct (Nat.ltb_spec i l); [|lia]. destruct (Nat.leb_spec u (u + t)); [|lia].
      replace (u + t - u)%nat with t by lia.
      destruct (Nat.leb_spec i t); destruct (Nat.leb_spec (n + i) (l + (n - l + t))); try lia; auto.
      f_equal; lia.
  - cbn [andb]. rewrite (rsum_zero n (fun j => 0 * v j)) by (intros; ring). rewrite Rplus_0_r.
    destruct (Nat.leb_spec (n - u) i) as [Hiu|Hiu]; cbn [andb].
    + rewrite Sp. rewrite (rsum_zero l), Rplus_0_r.
      2:{ intros t Ht. unfold corner. destruct (Nat.ltb_spec (l + (i - (n - u))) l); [lia|].
          destruct (Nat.ltb_spec (u + t) u); [lia|ring]. }
      replace n with (u + (n - u))%nat at 1 by lia. rewrite rsum_split.
      rewrite (rsum_zero (n - u)), Rplus_0_r.
      2:{ intros t Ht. destruct (Nat.leb_spec (u + t + n) (u + i)); [lia|ring]. }
      apply rsum_ext. intros m Hm. f_equal. unfold corner.
      destruct (Nat.ltb_spec (l + (i - (n - u))) l); [lia|]. destruct (Nat.ltb_spec m u); [|lia].
      destruct (Nat.leb_spec (m + n) (u + i)); destruct (Nat.leb_spec m (l + (i - (n - u)) - l)); try lia; auto.
      f_equal; lia.
    + apply rsum_zero. intros; ring.
Qed.

Lemma put2_ok r0 c0 r c (v a : arr2 R) : nr v = r -> nc v = c ->
  exists a', put2 r0 c0 r c v a = Ok a' /\ nr a' = nr a /\ nc a' = nc a /\
  forall i j, at2 a' i j = if ((r0 <=? i) && (i <? r0 + r) && (c0 <=? j) && (j <? c0 + c))%nat
                           then at2 v (i - r0) (j - c0) else at2 a i j.
Proof. intros <- <-. unfold put2. rewrite !Nat.eqb_refl. cbn [andb]. eexists. repeat split. Qed.

(* the corner matrix and the right-hand sides the code builds *)
Lemma corn_ok l u (ab : arr2 R) : (l + u <= nc ab)%nat -> nr ab = (l + u + 1)%nat ->
  exists c1 c2,
    (if (u =? 0)%nat then Ok (zeros2 (l + u) (l + u))
     else let! d := diag_to_norm (u - 1) 0 (sub2 0 u 0 u ab) in put2 l 0 u u d (zeros2 (l + u) (l + u)))%res = Ok c1 /\
    (if (l =? 0)%nat then Ok c1
     else let! d := diag_to_norm 0 (l - 1) (sub2 (nr ab - l) (nr ab) (nc ab - l) (nc ab) ab) in put2 0 u l l d c1)%res = Ok c2 /\
    nr c2 = (l + u)%nat /\ nc c2 = (l + u)%nat /\
    forall q m, (q < l + u)%nat -> (m < l + u)%nat -> at2 c2 q m = corner (nc ab) l u ab q m.
Proof.
  intros Hlu Hr. remember (nc ab) as n eqn:Hn'.
  assert (S1 : exists c1, (if (u =? 0)%nat then Ok (zeros2 (l + u) (l + u))
     else let! d := diag_to_norm (u - 1) 0 (sub2 0 u 0 u ab) in put2 l 0 u u d (zeros2 (l + u) (l + u)))%res = Ok c1 /\
     nr c1 = (l + u)%nat /\ nc c1 = (l + u)%nat /\ forall q m, (q < l + u)%nat -> (m < l + u)%nat ->
       at2 c1 q m = if (q <? l)%nat then 0 else if (m <? u)%nat then (if (m <=? q - l)%nat then at2 ab (q - l - m) m else 0) else 0).
  { destruct (Nat.eqb_spec u 0) as [Hu|Hu].
    - eexists. split; [reflexivity|]. split; [reflexivity|]. split; [reflexivity|]. intros q m Hq Hm. cbn [at2 zeros2].
      destruct (Nat.ltb_spec q l); [reflexivity|lia].
    - destruct (diag_to_norm_ok (u - 1) 0 (sub2 0 u 0 u ab)) as (d & E & D1 & D2 & G); cbn [sub2 nr nc] in *; try lia.
      rewrite E. cbn [bind]. destruct (put2_ok l 0 u u d (zeros2 (l + u) (l + u))) as (c1 & E1 & C1 & C2 & G1); try lia.
      rewrite E1. exists c1. split; [reflexivity|]. split; [rewrite C1; reflexivity|]. split; [rewrite C2; reflexivity|].
      intros q m Hq Hm. rewrite G1. cbn [zeros2 at2].
      destruct (Nat.ltb_spec q l) as [Hql|Hql].
      + destruct (Nat.leb_spec l q); [lia|]. reflexivity.
      + destruct (Nat.leb_spec l q); [|lia]. destruct (Nat.ltb_spec q (l + u)); [|lia]. cbn [andb Nat.leb].
        destruct (Nat.ltb_spec m (0 + u)); destruct (Nat.ltb_spec m u); try lia; cbn [andb]; auto.
        rewrite G by lia. cbn [sub2 at2]. rewrite Nat.sub_0_r.
        destruct (Nat.leb_spec (q - l) (m + (u - 1))); [|lia]. cbn [andb].
        destruct (Nat.leb_spec m (q - l + 0)); destruct (Nat.leb_spec m (q - l)); try lia; auto. }
  destruct S1 as (c1 & E1 & C1 & C2 & G1). exists c1.
  destruct (Nat.eqb_spec l 0) as [Hl|Hl].
  - exists c1. split; [exact E1|]. split; [reflexivity|]. split; [auto|]. split; [auto|].
    intros q m Hq Hm. rewrite G1 by auto. unfold corner. destruct (Nat.ltb_spec q l); [lia|reflexivity].
  - destruct (diag_to_norm_ok 0 (l - 1) (sub2 (nr ab - l) (nr ab) (n - l) n ab)) as (d & E & D1 & D2 & G); cbn [sub2 nr nc] in *; try lia.
    rewrite E. cbn [bind]. destruct (put2_ok 0 u l l d c1) as (c2 & E2 & C3 & C4 & G2); try lia.
    exists c2. split; [exact E1|]. split; [exact E2|]. split; [lia|]. split; [lia|].
    intros q m Hq Hm. rewrite G2, G1 by auto. unfold corner. cbn [Nat.leb andb].
    destruct (Nat.ltb_spec q (0 + l)); destruct (Nat.ltb_spec q l); try lia; cbn [andb].
    + destruct (Nat.leb_spec u m); cbn [andb]; auto. destruct (Nat.ltb_spec m (u + l)); [|lia].
      rewrite G by lia. cbn [sub2 at2]. rewrite Nat.sub_0_r.
      destruct (Nat.leb_spec q (m - u + 0)); destruct (Nat.leb_spec q (m - u)); try lia; cbn [andb]; auto.
      destruct (Nat.leb_spec (m - u) (q + (l - 1))); [|lia]. f_equal; lia.
    + reflexivity.
Qed.
Lemma bb_ok n l u : (l + u <= n)%nat ->
  exists b1 b2,
    (if (u =? 0)%nat then Ok (zeros2 n (l + u)) else put2 (n - u) l u u (eye2 u) (zeros2 n (l + u)))%res = Ok b1 /\
    put2 0 0 (Nat.min l n) l (eye2 l) b1 = Ok b2 /\
    nr b2 = n /\ nc b2 = (l + u)%nat /\
    forall i c, (i < n)%nat -> (c < l + u)%nat ->
      at2 b2 i c = match crow n l u i with Some q => if (q =? c)%nat then 1 else 0 | None => 0 end.
Proof.
  intros Hlu.
  assert (S1 : exists b1, (if (u =? 0)%nat then Ok (zeros2 n (l + u)) else put2 (n - u) l u u (eye2 u) (zeros2 n (l + u)))%res = Ok b1 /\
    nr b1 = n /\ nc b1 = (l + u)%nat /\ forall i c, (i < n)%nat -> (c < l + u)%nat ->
      at2 b1 i c = if (n - u <=? i)%nat then (if (l + (i - (n - u)) =? c)%nat then 1 else 0) else 0).
  { destruct (Nat.eqb_spec u 0) as [Hu|Hu].
    - eexists. split; [reflexivity|]. split; [reflexivity|]. split; [reflexivity|]. intros i c Hi Hc.
      destruct (Nat.leb_spec (n - u) i); [lia|reflexivity].
    - destruct (put2_ok (n - u) l u u (eye2 u) (zeros2 n (l + u))) as (b1 & E & B1 & B2 & G); auto.
      exists b1. split; [exact E|]. split; [rewrite B1; reflexivity|]. split; [rewrite B2; reflexivity|].
      intros i c Hi Hc. rewrite G. cbn [eye2 zeros2 at2]. numR.
      destruct (Nat.leb_spec (n - u) i); cbn [andb]; auto. destruct (Nat.ltb_spec i (n - u + u)); [|lia]. cbn [andb].
      destruct (Nat.leb_spec l c); cbn [andb].
      + destruct (Nat.ltb_spec c (l + u)); [|lia].
        destruct (Nat.eqb_spec (i - (n - u)) (c - l)); destruct (Nat.eqb_spec (l + (i - (n - u))) c); try lia; auto.
      + destruct (Nat.eqb_spec (l + (i - (n - u))) c); try lia; auto. }
  destruct S1 as (b1 & E1 & B1 & B2 & G1). exists b1.
  replace (Nat.min l n) with l by lia.
  destruct (put2_ok 0 0 l l (eye2 l) b1) as (b2 & E2 & B3 & B4 & G2); auto.
  exists b2. split; [exact E1|]. split; [exact E2|]. split; [lia|]. split; [lia|].
  intros i c Hi Hc. rewrite G2, G1 by auto. cbn [eye2 at2 Nat.leb andb]. numR. rewrite !Nat.sub_0_r. cbn [Nat.add]. unfold crow.
  destruct (Nat.ltb_spec i l) as [Hil|Hil]; cbn [andb].
  - destruct (Nat.ltb_spec c l); auto. destruct (Nat.leb_spec (n - u) i); [lia|].
    destruct (Nat.eqb_spec i c); [lia|reflexivity].
  - destruct (Nat.leb_spec (n - u) i); auto.
Qed.

(* C24: the result solves the cyclic system; there is one whenever the cyclic matrix and its
   band part are both nonsingular *)
Theorem C24_solve_periodic sb s l u (ab b : arr2 R) :
  banded_spec sb -> dense_spec s ->
  (0 < nc ab)%nat -> (l + u <= nc ab)%nat -> nr ab = (l + u + 1)%nat -> nr b = nc ab ->
  (forall x, solve_periodic sb s l u ab b = Ok x -> solves (nc ab) (cyc l u ab) x b) /\
  (banded_complete sb -> dense_complete s -> nonsing (nc ab) (band l u ab) -> nonsing (nc ab) (cyc l u ab) ->
   exists x, solve_periodic sb s l u ab b = Ok x).
Proof.
  intros Hsb Hs Hn Hlu Hr Hb. set (n := nc ab) in *.
  destruct (corn_ok l u ab Hlu Hr) as (c1 & corn & E1 & E2 & C1 & C2 & GC). fold n in E2, GC.
  destruct (bb_ok n l u Hlu) as (b1 & bb & E3 & E4 & B1 & B2 & GB).
  unfold solve_periodic. fold n. rewrite E1. cbn [bind]. rewrite E2. cbn [bind].
  assert (LM : length (per_mask n l (l + u)) = (l + u)%nat).
  { rewrite per_mask_eq by auto. rewrite app_length, !seq_length. lia. }
  (* the steps after the banded solves *)
  assert (Tail : forall xx xy, solves n (band l u ab) xx b -> solves n (band l u ab) xy bb ->
     exists cm acx,
     (forall i j, (i < l + u)%nat -> (j < l + u)%nat -> at2 cm i j = (if (i =? j)%nat then 1 else 0) +
        rsum (l + u) (fun m => corner n l u ab i m * at2 xy (mvar n l u m) j)) /\
     (forall i c, (i < l + u)%nat -> at2 acx i c = rsum (l + u) (fun m => corner n l u ab i m * at2 xx (mvar n l u m) c)) /\
     nr cm = (l + u)%nat /\ nc cm = (l + u)%nat /\ nr acx = (l + u)%nat /\ nc acx = nc b /\
     (let! acx := dot2 corn (rows2 (per_mask n l (l + u)) xx) in
      let! acy := dot2 corn (rows2 (per_mask n l (l + u)) xy) in
      let! corn := add_arr (eye2 (l + u)) acy in
      let! p := s corn acx in let! xp := dot2 xy p in sub_arr xx xp)%res =
     (let! p := s cm acx in let! xp := dot2 xy p in sub_arr xx xp)%res).
  { intros xx xy (X1 & X2 & X3) (Y1 & Y2 & Y3).
    unfold dot2 at 1 2. cbn [rows2 nr nc]. rewrite LM, C2, Nat.eqb_refl. cbn [bind].
    unfold add_arr. cbn [nr nc eye2]. rewrite C1, Y2, B2, !Nat.eqb_refl. cbn [andb bind at2 eye2].
    eexists. eexists. split; [|split; [|split; [|split; [|split; [|split; [|reflexivity]]]]]]; auto; cbn [at2 nr nc].
    - intros i j Hi Hj. rewrite ksum_rsum. numR. f_equal. apply rsum_ext. intros m Hm. numR. rewrite GC by auto.
      cbn [rows2 at2]. rewrite nth_mask by auto. reflexivity.
    - intros i c Hi. rewrite ksum_rsum. apply rsum_ext. intros m Hm. numR. rewrite GC by auto.
      cbn [rows2 at2]. rewrite nth_mask by auto. reflexivity. }
  split.
  - intros x H. destruct (sb l u ab b) as [xx|] eqn:Exx; [|discriminate]. cbn [bind] in H.
    rewrite E3 in H. cbn [bind] in H. rewrite E4 in H. cbn [bind] in H.
    destruct (sb l u ab bb) as [xy|] eqn:Exy; [|discriminate]. cbn [bind] in H.
    pose proof (Hsb _ _ _ _ _ Hr Hb Exx) as Sx. pose proof (Hsb _ _ _ _ _ Hr B1 Exy) as Sy. fold n in Sx, Sy.
    destruct (Tail xx xy Sx Sy) as (cm & acx & GM & GA & M1 & M2 & A1 & A2 & ET).
    rewrite ET in H. clear ET. destruct (s cm acx) as [p|] eqn:Ep; [|discriminate]. cbn [bind] in H.
    destruct (Hs cm acx p ltac:(lia) ltac:(lia) Ep) as (P1 & P2 & P3).
    destruct Sx as (X1 & X2 & X3). destruct Sy as (Y1 & Y2 & Y3).
    unfold dot2 in H. rewrite Y2, B2, P1, M1, Nat.eqb_refl in H. cbn [bind] in H.
    unfold sub_arr in H. cbn [nr nc] in H. rewrite X1, Y1, X2, P2, A2, !Nat.eqb_refl in H. cbn [andb] in H.
    injection H as <-. split; [reflexivity|]. split; [reflexivity|]. cbn [at2]. intros i c Hi Hc.
    set (v := fun j => at2 xx j c - rsum (l + u) (fun k => at2 xy j k * at2 p k c)).
    rewrite (rsum_ext _ _ (fun j => cyc l u ab i j * v j)).
    2:{ intros j Hj. reflexivity. }
    pose proof (cyc_apply l u ab v i Hlu Hi) as CA. cbv zeta in CA. fold n in CA. rewrite CA. clear CA.
    (* band part *)
    assert (BP : rsum n (fun j => band l u ab i j * v j) = at2 b i c - rsum (l + u) (fun k => at2 bb i k * at2 p k c)).
    { rewrite (rsum_ext _ _ (fun j => band l u ab i j * at2 xx j c - rsum (l + u) (fun k => band l u ab i j * at2 xy j k * at2 p k c))).
      2:{ intros j Hj. unfold v. rewrite Rmult_minus_distr_l. f_equal. rewrite <- rsum_scal. apply rsum_ext. intros; ring. }
      rewrite rsum_minus, X3 by auto. f_equal. rewrite rsum_swap. apply rsum_ext. intros k Hk.
      rewrite rsum_scal_r. rewrite Y3 by (auto; rewrite B2; auto). reflexivity. }
    rewrite BP.
    rewrite (rsum_ext (l + u) _ (fun k => match crow n l u i with Some q => if (q =? k)%nat then 1 else 0 | None => 0 end * at2 p k c)).
    2:{ intros k Hk. rewrite GB; auto. }
    destruct (crow n l u i) as [q|] eqn:Eq.
    2:{ rewrite rsum_zero by (intros; ring). ring. }
    assert (Hq : (q < l + u)%nat).
    { unfold crow in Eq. destruct (Nat.ltb_spec i l); [injection Eq as <-; lia|].
      destruct (Nat.leb_spec (n - u) i); [injection Eq as <-; lia|discriminate]. }
    rewrite (rsum_single (l + u) q).
    2:{ auto. }
    2:{ intros k Hk Hne. destruct (Nat.eqb_spec q k); [congruence|ring]. }
    rewrite Nat.eqb_refl.
    (* corner part *)
    assert (CP : rsum (l + u) (fun m => corner n l u ab q m * v (mvar n l u m)) = at2 p q c).
    { specialize (P3 q c). rewrite M1, A2 in P3. specialize (P3 Hq Hc). rewrite GA in P3 by auto.
      rewrite (rsum_ext _ _ (fun m => corner n l u ab q m * at2 xx (mvar n l u m) c
        - rsum (l + u) (fun k => corner n l u ab q m * at2 xy (mvar n l u m) k * at2 p k c))).
      2:{ intros m Hm. unfold v. rewrite Rmult_minus_distr_l. f_equal. rewrite <- rsum_scal. apply rsum_ext. intros; ring. }
      rewrite rsum_minus, <- P3, rsum_swap, <- rsum_minus.
      rewrite (rsum_ext _ _ (fun k => if (k =? q)%nat then at2 p k c else 0)).
      - rewrite rsum_delta. destruct (Nat.ltb_spec q (l + u)); [reflexivity|lia].
      - intros k Hk. rewrite GM by auto. rewrite (rsum_scal_r (l + u)).
        destruct (Nat.eqb_spec q k) as [->|]; [rewrite Nat.eqb_refl; ring|].
        destruct (Nat.eqb_spec k q); [congruence|]. ring. }
    rewrite CP. ring.
  - intros Kb Ks NB NA. assert (Tb : forall b', nr b' = n -> exists x, sb l u ab b' = Ok x) by (intros; apply Kb; auto).
    destruct (Tb b Hb) as [xx Exx]. rewrite Exx. cbn [bind]. rewrite E3. cbn [bind]. rewrite E4. cbn [bind].
    destruct (Tb bb B1) as [xy Exy]. rewrite Exy. cbn [bind].
    pose proof (Hsb _ _ _ _ _ Hr Hb Exx) as Sx. pose proof (Hsb _ _ _ _ _ Hr B1 Exy) as Sy. fold n in Sx, Sy.
    destruct (Tail xx xy Sx Sy) as (cm & acx & GM & GA & M1 & M2 & A1 & A2 & ET). rewrite ET.
    assert (NC : nonsing (nr cm) (at2 cm)).
    { rewrite M1. intros w Hw.
      destruct Sy as (Y1 & Y2 & Y3).
      set (v := fun j => rsum (l + u) (fun k => at2 xy j k * w k)).
      assert (BV : forall i, (i < n)%nat -> rsum n (fun j => band l u ab i j * v j) =
                match crow n l u i with Some q => w q | None => 0 end).
      { intros i Hi. rewrite (rsum_ext _ _ (fun j => rsum (l + u) (fun k => band l u ab i j * at2 xy j k * w k))).
        2:{ intros j Hj. unfold v. rewrite <- rsum_scal. apply rsum_ext. intros; ring. }
        rewrite rsum_swap.
        rewrite (rsum_ext _ _ (fun k => match crow n l u i with Some q => if (q =? k)%nat then 1 else 0 | None => 0 end * w k)).
        2:{ intros k Hk. rewrite rsum_scal_r. rewrite Y3 by (auto; rewrite B2; auto). rewrite GB; auto. }
        destruct (crow n l u i) as [q|] eqn:Eq; [|rewrite rsum_zero by (intros; ring); ring].
        assert (Hq : (q < l + u)%nat).
        { unfold crow in Eq. destruct (Nat.ltb_spec i l); [injection Eq as <-; lia|].
          destruct (Nat.leb_spec (n - u) i); [injection Eq as <-; lia|discriminate]. }
        rewrite (rsum_single (l + u) q); [rewrite Nat.eqb_refl; ring|auto|].
        intros k Hk Hne. destruct (Nat.eqb_spec q k); [congruence|ring]. }
      assert (CV : forall q, (q < l + u)%nat -> rsum (l + u) (fun m => corner n l u ab q m * v (mvar n l u m)) = - w q).
      { intros q Hq. specialize (Hw q Hq).
        rewrite (rsum_ext _ _ (fun k => (if (k =? q)%nat then w k else 0) +
           rsum (l + u) (fun m => corner n l u ab q m * at2 xy (mvar n l u m) k * w k))) in Hw.
        2:{ intros k Hk. rewrite GM by auto. rewrite rsum_scal_r.
            destruct (Nat.eqb_spec q k) as [->|]; [rewrite Nat.eqb_refl; ring|]. destruct (Nat.eqb_spec k q); [congruence|ring]. }
        rewrite rsum_plus, rsum_delta, rsum_swap in Hw. destruct (Nat.ltb_spec q (l + u)); [|lia].
        rewrite (rsum_ext _ _ (fun m => rsum (l + u) (fun k => corner n l u ab q m * at2 xy (mvar n l u m) k * w k))).
        2:{ intros m Hm. unfold v. rewrite <- rsum_scal. apply rsum_ext. intros; ring. }
        lra. }
      assert (V0 : forall j, (j < n)%nat -> v j = 0).
      { apply NA. intros i Hi. pose proof (cyc_apply l u ab v i Hlu Hi) as CA. cbv zeta in CA. fold n in CA. rewrite CA, BV by auto.
        destruct (crow n l u i) as [q|] eqn:Eq; [|ring].
        rewrite CV; [ring|]. unfold crow in Eq. destruct (Nat.ltb_spec i l); [injection Eq as <-; lia|].
        destruct (Nat.leb_spec (n - u) i); [injection Eq as <-; lia|discriminate]. }
      intros q Hq.
      assert (Hi : exists i, (i < n)%nat /\ crow n l u i = Some q).
      { destruct (Nat.lt_ge_cases q l) as [Hl|Hl].
        - exists q. split; [lia|]. unfold crow. destruct (Nat.ltb_spec q l); [reflexivity|lia].
        - exists (n - u + (q - l))%nat. split; [lia|]. unfold crow. destruct (Nat.ltb_spec (n - u + (q - l)) l); [lia|].
          destruct (Nat.leb_spec (n - u) (n - u + (q - l))); [f_equal; lia|lia]. }
      destruct Hi as (i & Hi & Ei). specialize (BV i Hi). rewrite Ei in BV. rewrite <- BV.
      apply rsum_zero. intros j Hj. rewrite V0 by auto. ring. }
    destruct (Ks cm acx ltac:(lia) ltac:(lia) NC) as [p Ep]. rewrite Ep. cbn [bind].
    destruct (Hs cm acx p ltac:(lia) ltac:(lia) Ep) as (P1 & P2 & P3).
    destruct Sx as (X1 & X2 & X3). destruct Sy as (Y1 & Y2 & Y3).
    unfold dot2. rewrite Y2, B2, P1, M1, Nat.eqb_refl. cbn [bind].
    unfold sub_arr. cbn [nr nc]. rewrite X1, Y1, X2, P2, A2, !Nat.eqb_refl. cbn [andb]. eexists. reflexivity.
Qed.

(* --- C25 ----------------------------------------------------------------------------- *)
(* the symmetric cyclic matrix described by the lower form: ab[s,j] is entry (j+s mod n, j)
   and its mirror image *)
Definition symlow (u : nat) (ab : arr2 R) (i j : nat) : R :=
  let n := nc ab in
  (if (i =? j)%nat then at2 ab 0 j else 0) +
  rsum u (fun s => (if ((j + S s) mod n =? i)%nat then at2 ab (S s) j else 0) +
                   (if ((i + S s) mod n =? j)%nat then at2 ab (S s) i else 0)).
(* by the upper form: ab[u-s,j] is entry (j-s mod n, j) and its mirror image *)
Definition symup (u : nat) (ab : arr2 R) (i j : nat) : R :=
  let n := nc ab in
  (if (i =? j)%nat then at2 ab u j else 0) +
  rsum u (fun s => (if ((i + S s) mod n =? j)%nat then at2 ab (u - S s) j else 0) +
                   (if ((j + S s) mod n =? i)%nat then at2 ab (u - S s) i else 0)).
(* the symmetric banded matrices of scipy's solveh_banded *)
Definition hlow (u : nat) (ab : arr2 R) (i j : nat) : R :=
  if (Nat.max i j - Nat.min i j <=? u)%nat then at2 ab (Nat.max i j - Nat.min i j) (Nat.min i j) else 0.
Definition hup (u : nat) (ab : arr2 R) (i j : nat) : R :=
  if (Nat.max i j - Nat.min i j <=? u)%nat then at2 ab (u - (Nat.max i j - Nat.min i j)) (Nat.max i j) else 0.
Definition described (lower : bool) (u : nat) (ab : arr2 R) : nat -> nat -> R := if lower then symlow u ab else symup u ab.
Definition hdescribed (lower : bool) (u : nat) (ab : arr2 R) : nat -> nat -> R := if lower then hlow u ab else hup u ab.

Lemma rsum_rev n f : rsum n f = rsum n (fun s => f (n - 1 - s)%nat).
Proof.
  revert f; induction n; intros f; [reflexivity|].
  rewrite rsum_S_l. rewrite IHn. cbn [rsum]. rewrite Nat.sub_diag || idtac.
  rewrite Rplus_comm. f_equal.
  - apply rsum_ext. intros s Hs. f_equal. lia.
  - f_equal. lia.
Qed.
Lemma mod_shift n i j t : (i < n)%nat -> (j < n)%nat -> (t <= n)%nat ->
  ((j + n - t) mod n =? i)%nat = ((i + t) mod n =? j)%nat.
Proof.
  intros Hi Hj Ht.
  assert (A : ((j + n - t) mod n = if (t <=? j)%nat then j - t else j + n - t)%nat).
  { destruct (Nat.leb_spec t j); [|apply Nat.mod_small; lia].
    replace (j + n - t)%nat with ((j - t) + 1 * n)%nat by lia. rewrite Nat.mod_add, Nat.mod_small; lia. }
  assert (B : ((i + t) mod n = if (i + t <? n)%nat then i + t else i + t - n)%nat).
  { destruct (Nat.ltb_spec (i + t) n); [apply Nat.mod_small; lia|].
    replace (i + t)%nat with ((i + t - n) + 1 * n)%nat at 1 by lia. rewrite Nat.mod_add, Nat.mod_small; lia. }
  rewrite A, B. destruct (Nat.leb_spec t j); destruct (Nat.ltb_spec (i + t) n);
  match goal with |- (?a =? ?b)%nat = (?c =? ?d)%nat => destruct (Nat.eqb_spec a b); destruct (Nat.eqb_spec c d) end; auto; lia.
Qed.
Lemma symgen_shape (ab : arr2 R) u lower : nr ab = (u + 1)%nat ->
  nr (symgen ab u lower) = (u + u + 1)%nat /\ nc (symgen ab u lower) = nc ab.
Proof. intros H. destruct lower; cbn; split; auto; lia. Qed.
Lemma symgen_cyc ab u lower i j : nr ab = (u + 1)%nat -> (u <= nc ab)%nat -> (i < nc ab)%nat -> (j < nc ab)%nat ->
  cyc u u (symgen ab u lower) i j = described lower u ab i j.
Proof.
  intros Hr Hu Hi Hj. unfold cyc. replace (nc (symgen ab u lower)) with (nc ab) by (destruct lower; reflexivity).
  remember (nc ab) as n eqn:Hn.
  replace (u + u + 1)%nat with (u + (1 + u))%nat by lia. rewrite !rsum_split.
  replace (rsum 1 _) with (rsum 1 (fun _ => if (j =? i)%nat then (if lower then at2 ab 0 j else at2 ab u j) else 0)).
  2:{ apply rsum_ext. intros t Ht. replace (u + t + j + n - u)%nat with (j + 1 * n)%nat by lia. rewrite Nat.mod_add, Nat.mod_small by lia.
      assert (t = 0%nat) as -> by lia. destruct (j =? i)%nat; auto. destruct lower; cbn [symgen at2].
      - destruct (Nat.ltb_spec (u + 0) u); [lia|]. f_equal; lia.
      - rewrite Hr. destruct (Nat.ltb_spec (u + 0) (u + 1)); [|lia]. f_equal; lia. }
  unfold described, symlow, symup. destruct lower; rewrite <- Hn.
  - rewrite rsum_plus, (rsum_rev u (fun r => if ((r + j + n - u) mod n =? i)%nat then _ else 0)).
    cbn [rsum]. rewrite Nat.eqb_sym.
    rewrite (rsum_ext u (fun s => if ((u - 1 - s + j + n - u) mod n =? i)%nat then _ else 0)
       (fun s => if ((i + S s) mod n =? j)%nat then at2 ab (S s) i else 0)).
    2:{ intros s Hs. replace (u - 1 - s + j + n - u)%nat with (j + n - S s)%nat by lia. rewrite mod_shift by lia.
        destruct (Nat.eqb_spec ((i + S s) mod n) j) as [E|E]; auto. cbn [symgen at2]. rewrite <- Hn.
        destruct (Nat.ltb_spec (u - 1 - s) u); [|lia]. replace (u - (u - 1 - s))%nat with (S s) by lia. f_equal.
        destruct (Nat.eq_dec (S s) n) as [En|En].
        - rewrite En, Nat.mod_same, Nat.sub_0_r by lia. replace (j + n)%nat with (j + 1 * n)%nat by lia.
          rewrite Nat.mod_add, Nat.mod_small by lia. rewrite En in E. replace (i + n)%nat with (i + 1 * n)%nat in E by lia.
          rewrite Nat.mod_add, Nat.mod_small in E by lia. auto.
        - rewrite (Nat.mod_small (S s)) by lia. replace (j + (n - S s))%nat with (j + n - S s)%nat by lia.
          apply Nat.eqb_eq. rewrite mod_shift by lia. apply Nat.eqb_eq. exact E. }
    rewrite (rsum_ext u (fun i0 => if ((u + (1 + i0) + j + n - u) mod n =? i)%nat then _ else 0)
       (fun s => if ((j + S s) mod n =? i)%nat then at2 ab (S s) j else 0)).
    2:{ intros s Hs. replace (u + (1 + s) + j + n - u)%nat with (j + S s + 1 * n)%nat by lia. rewrite Nat.mod_add by lia.
        destruct (_ =? i)%nat; auto. cbn [symgen at2]. destruct (Nat.ltb_spec (u + (1 + s)) u); [lia|]. f_equal. lia. }
    ring.
  - rewrite rsum_plus, (rsum_rev u (fun r => if ((r + j + n - u) mod n =? i)%nat then _ else 0)).
    cbn [rsum]. rewrite Nat.eqb_sym.
    rewrite (rsum_ext u (fun s => if ((u - 1 - s + j + n - u) mod n =? i)%nat then _ else 0)
       (fun s => if ((i + S s) mod n =? j)%nat then at2 ab (u - S s) j else 0)).
    2:{ intros s Hs. replace (u - 1 - s + j + n - u)%nat with (j + n - S s)%nat by lia. rewrite mod_shift by lia.
        destruct (_ =? j)%nat; auto. cbn [symgen at2]. destruct (Nat.ltb_spec (u - 1 - s) (nr ab)); [|lia]. f_equal. lia. }
    rewrite (rsum_ext u (fun i0 => if ((u + (1 + i0) + j + n - u) mod n =? i)%nat then _ else 0)
       (fun s => if ((j + S s) mod n =? i)%nat then at2 ab (u - S s) i else 0)).
    2:{ intros s Hs. replace (u + (1 + s) + j + n - u)%nat with (j + S s + 1 * n)%nat by lia. rewrite Nat.mod_add by lia.
        destruct (Nat.eqb_spec ((j + S s) mod n) i) as [E|E]; auto. cbn [symgen at2]. rewrite <- Hn.
        destruct (Nat.ltb_spec (u + (1 + s)) (nr ab)); [lia|].
        replace (u - 1 - (u + (1 + s) - nr ab))%nat with (u - S s)%nat by lia. f_equal.
        rewrite <- E. f_equal. lia. }
    ring.
Qed.
Lemma symgen_band ab u lower i j : nr ab = (u + 1)%nat -> (u < nc ab)%nat -> (i < nc ab)%nat -> (j < nc ab)%nat ->
  band u u (symgen ab u lower) i j = hdescribed lower u ab i j.
Proof.
  intros Hr Hu Hi Hj. unfold band, hdescribed, hlow, hup. destruct lower; cbn [symgen at2]; remember (nc ab) as n eqn:Hn.
  - destruct (Nat.leb_spec (Nat.max i j - Nat.min i j) u) as [H|H].
    + destruct (Nat.leb_spec j (i + u)); [|lia]. destruct (Nat.leb_spec i (j + u)); [|lia]. cbn [andb].
      destruct (Nat.ltb_spec (u + i - j) u).
      * assert (Hij : (i < j)%nat) by lia. replace (u - (u + i - j))%nat with (j - i)%nat by lia.
        rewrite (Nat.mod_small (j - i)) by lia. replace (j + (n - (j - i)))%nat with (i + 1 * n)%nat by lia.
        rewrite Nat.mod_add, Nat.mod_small by lia. f_equal; lia.
      * f_equal; lia.
    + destruct (Nat.leb_spec j (i + u)); destruct (Nat.leb_spec i (j + u)); cbn [andb]; auto. lia.
  - destruct (Nat.leb_spec (Nat.max i j - Nat.min i j) u) as [H|H].
    + destruct (Nat.leb_spec j (i + u)); [|lia]. destruct (Nat.leb_spec i (j + u)); [|lia]. cbn [andb].
      destruct (Nat.ltb_spec (u + i - j) (nr ab)).
      * f_equal; lia.
      * replace (j + 1 + (u + i - j - nr ab))%nat with i by lia. rewrite Nat.mod_small by lia. f_equal; lia.
    + destruct (Nat.leb_spec j (i + u)); destruct (Nat.leb_spec i (j + u)); cbn [andb]; auto. lia.
Qed.

(* the expansion is the band of a symmetric matrix described by the input, and the two
   storage forms of one matrix expand to the same band *)
Theorem C25_symmetric_band u (ab : arr2 R) lower i j :
  nr ab = (u + 1)%nat -> (u < nc ab)%nat -> (i < nc ab)%nat -> (j < nc ab)%nat ->
  cyc u u (symgen ab u lower) i j = described lower u ab i j /\
  described lower u ab i j = described lower u ab j i /\
  band u u (symgen ab u lower) i j = hdescribed lower u ab i j /\
  hdescribed lower u ab i j = hdescribed lower u ab j i.
Proof.
  intros Hr Hu Hi Hj. split; [apply symgen_cyc; auto; lia|]. split; [|split; [apply symgen_band; auto|]].
  - destruct lower; cbn [described]; unfold symlow, symup; f_equal;
      try (rewrite (Nat.eqb_sym j i); destruct (Nat.eqb_spec i j) as [->|]; reflexivity);
      apply rsum_ext; intros s Hs; apply Rplus_comm.
  - destruct lower; cbn [hdescribed]; unfold hlow, hup; rewrite (Nat.max_comm j i), (Nat.min_comm j i); reflexivity.
Qed.
Theorem C25_forms_agree u (lo up : arr2 R) :
  nr lo = (u + 1)%nat -> nr up = (u + 1)%nat -> nc up = nc lo -> (u < nc lo)%nat ->
  (* the same matrix: entry (j+s mod n, j) is lo[s,j], entry (j, j+s mod n) is up[u-s, j+s mod n] *)
  (forall s j, (s <= u)%nat -> (j < nc lo)%nat -> at2 up (u - s) ((j + s) mod nc lo) = at2 lo s j) ->
  nr (symgen lo u true) = nr (symgen up u false) /\ nc (symgen lo u true) = nc (symgen up u false) /\
  forall r j, (r < u + u + 1)%nat -> (j < nc lo)%nat -> at2 (symgen lo u true) r j = at2 (symgen up u false) r j.
Proof.
  intros Hl Hu Hn Hlt Same. split; [cbn; lia|]. split; [cbn; auto|]. intros r j Hr Hj. cbn [symgen at2]. rewrite Hn, Hu.
  remember (nc lo) as n eqn:En.
  destruct (Nat.ltb_spec r u); destruct (Nat.ltb_spec r (u + 1)); try lia.
  - rewrite <- Same by (try apply Nat.mod_upper_bound; lia). replace (u - (u - r))%nat with r by lia.
    f_equal. rewrite (Nat.mod_small (u - r)) by lia. rewrite Nat.add_mod_idemp_l by lia.
    replace (j + (n - (u - r)) + (u - r))%nat with (j + 1 * n)%nat by lia. rewrite Nat.mod_add, Nat.mod_small; lia.
  - rewrite <- Same by lia. f_equal; [lia|]. replace (r - u)%nat with 0%nat by lia. rewrite Nat.add_0_r, Nat.mod_small; lia.
  - rewrite <- Same by lia. f_equal; [lia|]. f_equal. lia.
Qed.
Lemma solves_ext n a a' x b : (forall i j, (i < n)%nat -> (j < n)%nat -> a i j = a' i j) -> solves n a x b -> solves n a' x b.
Proof.
  intros E (H1 & H2 & H3). split; auto. split; auto. intros i c Hi Hc. rewrite <- H3 by auto. apply rsum_ext.
  intros j Hj. rewrite E; auto.
Qed.
(* the returned x solves the symmetric (cyclic) system *)
Theorem C25_solves sb s u (ab b : arr2 R) lower :
  banded_spec sb -> dense_spec s -> nr ab = (u + 1)%nat -> nr b = nc ab ->
  ((0 < nc ab)%nat -> (u + u <= nc ab)%nat -> forall x, solves_periodic sb s ab b lower = Ok x ->
     solves (nc ab) (described lower u ab) x b) /\
  ((u < nc ab)%nat -> forall x, solves_banded sb ab b lower = Ok x -> solves (nc ab) (hdescribed lower u ab) x b).
Proof.
  intros Hsb Hs Hr Hb. destruct (symgen_shape ab u lower Hr) as [S1 S2].
  split.
  - intros Hn Hu x E. unfold solves_periodic in E. replace (nr ab - 1)%nat with u in E by lia.
    destruct (C24_solve_periodic sb s u u (symgen ab u lower) b Hsb Hs) as [C _]; try (rewrite S2); auto.
    specialize (C x E). rewrite S2 in C. revert C. apply solves_ext. intros i j Hi Hj. apply symgen_cyc; auto; lia.
  - intros Hu x E. unfold solves_banded in E. replace (nr ab - 1)%nat with u in E by lia.
    specialize (Hsb _ _ _ _ _ S1 (eq_trans Hb (eq_sym S2)) E). rewrite S2 in Hsb. revert Hsb. apply solves_ext.
    intros i j Hi Hj. apply symgen_band; auto.
Qed.

(* --- a limit of the method ------------------------------------------------------------- *)
(* the cyclic matrix may be nonsingular while its band part is singular; then the inner banded
   solve cannot succeed and solve_periodic fails although the system has a unique solution *)
Definition swap_ab : arr2 R := Arr2 2 2 (fun r _ => match r with O => 0 | _ => 1 end).
Theorem C24_needs_nonsingular_band sb s (b : arr2 R) : banded_spec sb -> nr b = 2%nat ->
  nonsing 2 (cyc 1 0 swap_ab) /\ forall x, solve_periodic sb s 1 0 swap_ab b <> Ok x.
Proof.
  intros Hsb Hb. split.
  - intros v H j Hj. pose proof (H 0%nat ltac:(lia)) as H0. pose proof (H 1%nat ltac:(lia)) as H1.
    unfold cyc in H0, H1. cbn in H0, H1. destruct j as [|[|j]]; [lra|lra|lia].
  - intros x E. unfold solve_periodic in E. cbn [nc swap_ab] in E.
    destruct (corn_ok 1 0 swap_ab) as (c1 & c2 & E1 & E2 & _); [cbn; lia|reflexivity|]. cbn [nc swap_ab] in E1, E2.
    rewrite E1 in E. cbn [bind] in E. rewrite E2 in E. cbn [bind] in E.
    destruct (sb 1%nat 0%nat swap_ab b) as [xx|]; [|discriminate]. cbn [bind] in E.
    destruct (bb_ok 2 1 0) as (b1 & bb & E3 & E4 & B1 & B2 & GB); [lia|].
    rewrite E3 in E. cbn [bind] in E. rewrite E4 in E. cbn [bind] in E.
    destruct (sb 1%nat 0%nat swap_ab bb) as [xy|] eqn:Exy; [|discriminate].
    destruct (Hsb _ _ _ _ _ (eq_refl : nr swap_ab = (1 + 0 + 1)%nat) B1 Exy) as (_ & _ & Y).
    specialize (Y 0%nat 0%nat). cbn [nc swap_ab] in Y. specialize (Y ltac:(lia) ltac:(lia)).
    rewrite GB in Y by lia. cbn in Y. lra.
Qed.

(* --- cases ------------------------------------------------------------------------------- *)
(* a tridiagonal cyclic matrix of size 3 with corner elements 2 and 5 *)
Definition ab3 : arr2 R := Arr2 3 3 (fun r j => match r, j with O, O => 2 | O, _ => 1 | S O, _ => 9 | _, S (S O) => 5 | _, _ => 1 end).
Example C24_case b : nr b = 3%nat -> exists x, solve_periodic gbanded gdense 1 1 ab3 b = Ok x /\ solves 3 (cyc 1 1 ab3) x b.
Proof.
  intros Hb. destruct gauss_meets_specs as (G1 & G2 & G3 & G4).
  destruct (C24_solve_periodic gbanded gdense 1 1 ab3 b G1 G2) as [S C]; cbn [nc nr ab3]; try lia; auto.
  destruct C as [x E]; auto.
  - intros v H j Hj. pose proof (H 0%nat ltac:(cbn; lia)) as H0. pose proof (H 1%nat ltac:(cbn; lia)) as H1. pose proof (H 2%nat ltac:(cbn; lia)) as H2.
    unfold band in H0, H1, H2. cbn in H0, H1, H2, Hj. destruct j as [|[|[|j]]]; [lra|lra|lra|lia].
  - intros v H j Hj. pose proof (H 0%nat ltac:(cbn; lia)) as H0. pose proof (H 1%nat ltac:(cbn; lia)) as H1. pose proof (H 2%nat ltac:(cbn; lia)) as H2.
    unfold cyc in H0, H1, H2. cbn in H0, H1, H2, Hj. destruct j as [|[|[|j]]]; [lra|lra|lra|lia].
  - exists x. split; [exact E|]. apply S. exact E.
Qed.
Example C24_corners : cyc 1 1 ab3 2 0 = 2 /\ cyc 1 1 ab3 0 2 = 5 /\ band 1 1 ab3 2 0 = 0.
Proof. unfold cyc, band. cbn. lra. Qed.
Example C26_case : exists a, diag_to_norm 1 1 ab3 = Ok a /\ at2 a 0 1 = 1 /\ at2 a 0 2 = 0 /\ at2 a 1 1 = 9.
Proof.
  destruct (C26_diag_to_norm 1 1 ab3) as [C _]. destruct (C eq_refl) as (a & E & _ & _ & G); [cbn; lia|].
  exists a. split; auto. split; [|split].
  - destruct (G 0%nat 1%nat ltac:(cbn; lia) ltac:(cbn; lia)) as [A _]. rewrite A by lia. reflexivity.
  - destruct (G 0%nat 2%nat ltac:(cbn; lia) ltac:(cbn; lia)) as [_ A]. rewrite A by lia. reflexivity.
  - destruct (G 1%nat 1%nat ltac:(cbn; lia) ltac:(cbn; lia)) as [A _]. rewrite A by lia. reflexivity.
Qed.
(* the lower form of a symmetric cyclic matrix with diagonal 7, off-diagonal 1, corner 2 *)
Definition lo3 : arr2 R := Arr2 2 3 (fun r j => match r, j with O, _ => 7 | _, S (S O) => 2 | _, _ => 1 end).
Example C25_case b : nr b = 3%nat -> exists x, solves_periodic gbanded gdense lo3 b true = Ok x /\
  solves 3 (symlow 1 lo3) x b /\ symlow 1 lo3 0 2 = 2 /\ symlow 1 lo3 2 0 = 2.
Proof.
  intros Hb. destruct gauss_meets_specs as (G1 & G2 & G3 & G4).
  destruct (C24_solve_periodic gbanded gdense 1 1 (symgen lo3 1 true) b G1 G2) as [_ C]; cbn [nc nr lo3 symgen]; try lia; auto.
  destruct C as [x E]; auto.
  - intros v H j Hj. pose proof (H 0%nat ltac:(cbn; lia)) as H0. pose proof (H 1%nat ltac:(cbn; lia)) as H1. pose proof (H 2%nat ltac:(cbn; lia)) as H2.
    unfold band in H0, H1, H2. cbn in H0, H1, H2, Hj. destruct j as [|[|[|j]]]; [lra|lra|lra|lia].
  - intros v H j Hj. pose proof (H 0%nat ltac:(cbn; lia)) as H0. pose proof (H 1%nat ltac:(cbn; lia)) as H1. pose proof (H 2%nat ltac:(cbn; lia)) as H2.
    unfold cyc in H0, H1, H2. cbn in H0, H1, H2, Hj. destruct j as [|[|[|j]]]; [lra|lra|lra|lia].
  - exists x. split; [exact E|]. split.
    + destruct (C25_solves gbanded gdense 1 lo3 b true G1 G2) as [S _]; auto; try (cbn; lia).
      apply S; auto; cbn; lia.
    + unfold symlow. cbn. lra.
Qed.

Print Assumptions C24_solve_periodic.
Print Assumptions C24_needs_nonsingular_band.
Print Assumptions C25_symmetric_band.
Print Assumptions C25_forms_agree.
Print Assumptions C25_solves.
Print Assumptions C26_diag_to_norm.
Print Assumptions gauss_meets_specs.
