(* Lemmas for the least squares fits: band systems, sums over the data, normal equations. *)
From Coq Require Import List Arith ZArith Lia Bool Reals Lra.
From Verif Require Import Num PyBase NdArray Poly PwPoly PwBase RSum SolvePer SolveProofs Gauss PropsSolve Spline Fit.
Import ListNotations.
Local Open Scope R_scope.

Lemma rsum_two n a b (f : nat -> R) : (a < n)%nat -> (b < n)%nat -> a <> b ->
  (forall i, (i < n)%nat -> i <> a -> i <> b -> f i = 0) -> rsum n f = f a + f b.
Proof.
  intros Ha Hb Hne H.
  rewrite (rsum_ext n f (fun i => (if (i =? a)%nat then f i else 0) + (if (i =? b)%nat then f i else 0))).
  - rewrite rsum_plus, !rsum_delta. destruct (Nat.ltb_spec a n), (Nat.ltb_spec b n); lia || lra.
  - intros i Hi. destruct (Nat.eqb_spec i a), (Nat.eqb_spec i b); subst; try lia; try lra. rewrite H by auto. lra.
Qed.
Lemma bincount_R N ix (w : nat -> R) k : bincount N ix w k = rsum N (fun t => if (ix t =? k)%nat then w t else 0).
Proof. unfold bincount. rewrite ksum_rsum. reflexivity. Qed.
Lemma bincount_scal N ix (w : nat -> R) k c : bincount N ix w k * c = rsum N (fun t => if (ix t =? k)%nat then w t * c else 0).
Proof. rewrite bincount_R, <- rsum_scal_r. apply rsum_ext. intros t _. destruct (_ =? _)%nat; lra. Qed.

(* --- tridiagonal systems -------------------------------------------------------------------- *)
Lemma tri_row (ab : arr2 R) (x : nat -> R) i n : nc ab = n -> (i < n)%nat ->
  rsum n (fun j => hlow 1 ab i j * x j) =
  at2 ab 0 i * x i + (if (S i <? n)%nat then at2 ab 1 i * x (S i) else 0) + (if (i =? 0)%nat then 0 else at2 ab 1 (i - 1) * x (i - 1)%nat).
Proof.
  intros En Hi.
  rewrite (rsum_ext n _ (fun j => (if (j =? i)%nat then at2 ab 0 i * x j else 0) + (if (j =? S i)%nat then at2 ab 1 i * x j else 0)
     + (if (j =? i - 1)%nat then (if (i =? 0)%nat then 0 else at2 ab 1 (i - 1) * x j) else 0))).
  - rewrite !rsum_plus, (rsum_delta n i (fun j => at2 ab 0 i * x j)), (rsum_delta n (S i) (fun j => at2 ab 1 i * x j)).
    rewrite (rsum_delta n (i - 1) (fun j => if (i =? 0)%nat then 0 else at2 ab 1 (i - 1) * x j)).
    destruct (Nat.ltb_spec i n); [|lia]. destruct (Nat.ltb_spec (i - 1) n); [|lia]. lra.
  - intros j Hj. unfold hlow. destruct (Nat.leb_spec (Nat.max i j - Nat.min i j) 1).
    + destruct (Nat.eqb_spec j i) as [->|].
      * rewrite Nat.max_id, Nat.min_id, Nat.sub_diag. destruct (Nat.eqb_spec i (S i)); [lia|].
        destruct (Nat.eqb_spec i (i - 1)); [|lra]. destruct (Nat.eqb_spec i 0); [lra|lia].
      * destruct (Nat.eqb_spec j (S i)) as [->|].
        -- rewrite Nat.max_r, Nat.min_l by lia. replace (S i - i)%nat with 1%nat by lia. destruct (Nat.eqb_spec (S i) (i - 1)); [lia|lra].
        -- assert (j = i - 1)%nat as -> by lia. rewrite Nat.eqb_refl. destruct (Nat.eqb_spec i 0); [lia|].
           rewrite Nat.max_l, Nat.min_r by lia. replace (i - (i - 1))%nat with 1%nat by lia. lra.
    + destruct (Nat.eqb_spec j i); [lia|]. destruct (Nat.eqb_spec j (S i)); [lia|].
      destruct (Nat.eqb_spec j (i - 1)); [|lra]. destruct (Nat.eqb_spec i 0); lra || lia.
Qed.
(* ... and cyclic ones *)
Lemma tri_cyc_row (ab : arr2 R) (x : nat -> R) i n : nc ab = n -> (2 <= n)%nat -> (i < n)%nat ->
  let up := (if (S i =? n)%nat then 0%nat else S i) in let dn := (if (i =? 0)%nat then (n - 1)%nat else (i - 1)%nat) in
  rsum n (fun j => symlow 1 ab i j * x j) = at2 ab 0 i * x i + at2 ab 1 i * x up + at2 ab 1 dn * x dn.
Proof.
  intros En Hn Hi up dn.
  rewrite (rsum_ext n _ (fun j => (if (j =? i)%nat then at2 ab 0 j * x j else 0) + (if (j =? up)%nat then at2 ab 1 i * x j else 0)
     + (if (j =? dn)%nat then at2 ab 1 j * x j else 0))).
  - assert (up < n)%nat by (unfold up; destruct (Nat.eqb_spec (S i) n); lia).
    assert (dn < n)%nat by (unfold dn; destruct (Nat.eqb_spec i 0); lia).
    rewrite !rsum_plus, (rsum_delta n i (fun j => at2 ab 0 j * x j)), (rsum_delta n up (fun j => at2 ab 1 i * x j)),
      (rsum_delta n dn (fun j => at2 ab 1 j * x j)).
    destruct (Nat.ltb_spec i n); [|lia]. destruct (Nat.ltb_spec up n); [|lia]. destruct (Nat.ltb_spec dn n); [|lia]. lra.
  - intros j Hj. unfold symlow. rewrite En. cbn [rsum].
    assert (A : (((j + 1) mod n =? i) = (j =? dn))%nat).
    { unfold dn. destruct (Nat.eq_dec (j + 1) n) as [E|E].
      - rewrite E, Nat.mod_same by lia. destruct (Nat.eqb_spec i 0); destruct (Nat.eqb_spec 0 i); try lia.
        + symmetry. apply Nat.eqb_eq. lia. + symmetry. apply Nat.eqb_neq. lia.
      - rewrite Nat.mod_small by lia. destruct (Nat.eqb_spec i 0).
        + subst. symmetry. replace (j + 1 =? 0)%nat with false by (symmetry; apply Nat.eqb_neq; lia). apply Nat.eqb_neq. lia.
        + destruct (Nat.eqb_spec (j + 1) i); symmetry; [apply Nat.eqb_eq|apply Nat.eqb_neq]; lia. }
    assert (B : (((i + 1) mod n =? j) = (j =? up))%nat).
    { unfold up. destruct (Nat.eqb_spec (S i) n) as [E|E].
      - replace (i + 1)%nat with n by lia. rewrite Nat.mod_same by lia. apply Nat.eqb_sym.
      - rewrite Nat.mod_small by lia. rewrite Nat.eqb_sym. f_equal. lia. }
    rewrite A, B. rewrite (Nat.eqb_sym i j).
    destruct (Nat.eqb_spec j i), (Nat.eqb_spec j up), (Nat.eqb_spec j dn); lra.
Qed.
Lemma hlow_any u (ab : arr2 R) i j : nr ab = (u + 1)%nat -> (i < nc ab)%nat -> (j < nc ab)%nat ->
  band u u (symgen ab u true) i j = hlow u ab i j.
Proof.
  intros Hr Hi Hj. unfold band, hlow. cbn [symgen at2]. remember (nc ab) as n eqn:Hn.
  destruct (Nat.leb_spec (Nat.max i j - Nat.min i j) u) as [H|H].
  - destruct (Nat.leb_spec j (i + u)); [|lia]. destruct (Nat.leb_spec i (j + u)); [|lia]. cbn [andb].
    destruct (Nat.ltb_spec (u + i - j) u).
    + rewrite Nat.max_r, Nat.min_l by lia. replace (u - (u + i - j))%nat with (j - i)%nat by lia.
      rewrite (Nat.mod_small (j - i)) by lia. f_equal. replace (j + (n - (j - i)))%nat with (i + 1 * n)%nat by lia.
      rewrite Nat.mod_add by lia. apply Nat.mod_small. lia.
    + rewrite Nat.max_l, Nat.min_r by lia. f_equal. lia.
  - destruct (Nat.leb_spec j (i + u)); destruct (Nat.leb_spec i (j + u)); cbn [andb]; auto; lia.
Qed.
(* solves_banded in lower form for any band width *)
Lemma solves_banded_low sb u (ab b x : arr2 R) : banded_spec sb -> nr ab = (u + 1)%nat -> nr b = nc ab ->
  solves_banded sb ab b true = Ok x -> solves (nc ab) (hlow u ab) x b.
Proof.
  intros Hsb Hr Hb E. unfold solves_banded in E. replace (nr ab - 1)%nat with u in E by lia.
  destruct (symgen_shape ab u true Hr) as [S1 S2].
  apply Hsb in E; [|exact S1|rewrite S2; exact Hb]. rewrite S2 in E.
  destruct E as (E1 & E2 & E3). split; [exact E1|]. split; [exact E2|]. intros i c Hi Hc. rewrite <- E3 by auto.
  apply rsum_ext. intros j Hj. rewrite hlow_any by auto. reflexivity.
Qed.
Lemma solves_banded_low_complete sb u (ab b : arr2 R) : banded_complete sb -> nr ab = (u + 1)%nat -> nr b = nc ab ->
  nonsing (nc ab) (hlow u ab) -> exists x, solves_banded sb ab b true = Ok x.
Proof.
  intros Hsb Hr Hb E. unfold solves_banded. replace (nr ab - 1)%nat with u by lia.
  destruct (symgen_shape ab u true Hr) as [S1 S2]. apply Hsb; [exact S1|rewrite S2; exact Hb|].
  rewrite S2. intros v H. apply E. intros i Hi. rewrite <- (H i Hi). apply rsum_ext. intros j Hj. rewrite hlow_any by auto. reflexivity.
Qed.
(* solve_periodic never returns for fewer than l+u equations: the mask is too short *)
Lemma filter_len {A} (f : A -> bool) l : (length (filter f l) <= length l)%nat.
Proof. induction l; cbn; auto. destruct (f a); cbn; lia. Qed.
Lemma put2_nc r0 c0 r c (v a a' : arr2 R) : put2 r0 c0 r c v a = Ok a' -> nc a' = nc a.
Proof. unfold put2. destruct (_ && _); [|discriminate]. intros [= <-]. reflexivity. Qed.
Lemma bind_ok {A B} (e : res A) (f : A -> res B) r : bind e f = Ok r -> exists a, e = Ok a /\ f a = Ok r.
Proof. destruct e; cbn; [eauto|discriminate]. Qed.
Lemma solve_periodic_short sb s l u (ab b x : arr2 R) : solve_periodic sb s l u ab b = Ok x -> (l + u <= nc ab)%nat.
Proof.
  intros E. destruct (Nat.le_gt_cases (l + u) (nc ab)) as [|H]; auto. exfalso. unfold solve_periodic in E.
  apply bind_ok in E as (c1 & E1 & E). apply bind_ok in E as (c2 & E2 & E).
  apply bind_ok in E as (xx & _ & E). apply bind_ok in E as (bb1 & _ & E). apply bind_ok in E as (bb & _ & E).
  apply bind_ok in E as (xy & _ & E). apply bind_ok in E as (acx & E & _).
  assert (N1 : nc c1 = (l + u)%nat).
  { destruct (u =? 0)%nat; [injection E1 as <-; reflexivity|]. apply bind_ok in E1 as (d & _ & E1). apply put2_nc in E1. exact E1. }
  assert (N2 : nc c2 = (l + u)%nat).
  { destruct (l =? 0)%nat; [injection E2 as <-; exact N1|]. apply bind_ok in E2 as (d & _ & E2). apply put2_nc in E2. congruence. }
  unfold dot2 in E. rewrite N2 in E. cbn [rows2 nr] in E.
  assert (length (per_mask (nc ab) l (l + u)) <= nc ab)%nat.
  { unfold per_mask. eapply Nat.le_trans; [apply filter_len|]. rewrite seq_length. lia. }
  destruct (Nat.eqb_spec (l + u) (length (per_mask (nc ab) l (l + u)))); [lia|discriminate].
Qed.
Lemma solves_periodic_low sb s u (ab b x : arr2 R) : banded_spec sb -> dense_spec s -> nr ab = (u + 1)%nat -> (1 <= u)%nat -> nr b = nc ab ->
  solves_periodic sb s ab b true = Ok x -> (u + u <= nc ab)%nat /\ solves (nc ab) (symlow u ab) x b.
Proof.
  intros Hsb Hs Hr Hu Hb E. assert (L : (u + u <= nc ab)%nat).
  { unfold solves_periodic in E. apply solve_periodic_short in E. replace (nr ab - 1)%nat with u in E by lia.
    destruct (symgen_shape ab u true Hr) as [_ S2]. rewrite S2 in E. exact E. }
  split; [exact L|]. destruct (C25_solves sb s u ab b true Hsb Hs Hr Hb) as [C _]. apply C; auto. lia.
Qed.
Lemma solves_periodic_low_complete sb s u (ab b : arr2 R) : banded_spec sb -> dense_spec s -> banded_complete sb -> dense_complete s ->
  nr ab = (u + 1)%nat -> (0 < nc ab)%nat -> (u + u <= nc ab)%nat -> nr b = nc ab ->
  nonsing (nc ab) (hlow u ab) -> nonsing (nc ab) (symlow u ab) -> exists x, solves_periodic sb s ab b true = Ok x.
Proof.
  intros Hsb Hs Csb Cs Hr Hn Hu Hb N1 N2. unfold solves_periodic. replace (nr ab - 1)%nat with u by lia.
  destruct (symgen_shape ab u true Hr) as [S1 S2].
  destruct (C24_solve_periodic sb s u u (symgen ab u true) b Hsb Hs) as [_ C]; try (rewrite S2); auto. apply C; auto; rewrite S2.
  - intros v H. apply N1. intros i Hi. rewrite <- (H i Hi). apply rsum_ext. intros j Hj. rewrite hlow_any by auto. reflexivity.
  - intros v H. apply N2. intros i Hi. rewrite <- (H i Hi). apply rsum_ext. intros j Hj. rewrite (symgen_cyc ab u true) by (auto; lia). reflexivity.
Qed.

(* what is assumed of scipy.linalg.solveh_banded (lower form) *)
Definition solveh_spec (sh : arr2 R -> arr2 R -> res (arr2 R)) : Prop :=
  forall ab b x u, nr ab = (u + 1)%nat -> nr b = nc ab -> sh ab b = Ok x -> solves (nc ab) (hlow u ab) x b.
Definition posdef (n : nat) (a : nat -> nat -> R) : Prop :=
  forall v : nat -> R, (exists j, (j < n)%nat /\ v j <> 0) -> 0 < rsum n (fun i => v i * rsum n (fun j => a i j * v j)).
Definition solveh_complete (sh : arr2 R -> arr2 R -> res (arr2 R)) : Prop :=
  forall ab b u, nr ab = (u + 1)%nat -> nr b = nc ab -> posdef (nc ab) (hlow u ab) -> exists x, sh ab b = Ok x.

(* --- _plfitter -------------------------------------------------------------------------- *)
Section Plfitter.
  Variable sh : arr2 R -> arr2 R -> res (arr2 R).
  Variable sb : nat -> nat -> arr2 R -> arr2 R -> res (arr2 R).
  Variable s : arr2 R -> arr2 R -> res (arr2 R).
  Variable nun : nat.
  Variables adiag asup b : nat -> R.
  Hypothesis Hnun : (2 <= nun)%nat.
  Hypothesis Hsh : solveh_spec sh.
  Hypothesis Hsb : banded_spec sb.
  Hypothesis Hs : dense_spec s.
  (* row k of the tridiagonal matrix times v *)
  Definition trow (v : nat -> R) (k : nat) : R :=
    adiag k * v k + (if (S k <? nun)%nat then asup k * v (S k) else 0) + (if (k =? 0)%nat then 0 else asup (k - 1)%nat * v (k - 1)%nat).
  Definition bfun (lo hi : option R) (k : nat) : R := match hi with
    | Some v => if (k =? nun - 2)%nat then (match lo with Some u => if (k =? 1)%nat then b k - u * asup 0%nat else b k | None => b k end) - v * asup (nun - 2)%nat
                else (match lo with Some u => if (k =? 1)%nat then b k - u * asup 0%nat else b k | None => b k end)
    | None => match lo with Some u => if (k =? 1)%nat then b k - u * asup 0%nat else b k | None => b k end end.
  Lemma plfitter_ok lo hi v : plfitter sh sb s nun adiag asup b lo hi false = Ok v ->
    (forall u, lo = Some u -> v 0%nat = u) /\ (forall u, hi = Some u -> v (nun - 1)%nat = u) /\
    forall k, (k < nun)%nat -> (k = 0%nat -> lo = None) -> (k = (nun - 1)%nat -> hi = None) -> trow v k = b k.
  Proof using Hnun Hsh.
    unfold plfitter. set (c0 := if is_some lo then 1%nat else 0%nat). set (c1 := if is_some hi then 1%nat else 0%nat).
    set (n := (nun - c0 - c1)%nat). cbv zeta.
    set (b1 := match lo with Some v => _ | None => b end). set (b2 := match hi with Some v => _ | None => b1 end).
    set (ab := Arr2 2 n _). set (bb := Arr2 n 1 _).
    destruct (is_some hi && (n =? 0)%nat) eqn:Ehi; [discriminate|].
    intros E. apply bind_ok in E as (y & E & EV). apply (Hsh ab bb y 1%nat eq_refl eq_refl) in E as (_ & _ & E). cbn [ab bb nc] in E.
    assert (EQ : forall k, (c0 <= k)%nat -> (k - c0 < n)%nat ->
      adiag k * at2 y (k - c0) 0 + (if (S (k - c0) <? n)%nat then asup k * at2 y (S (k - c0)) 0 else 0) +
      (if (k - c0 =? 0)%nat then 0 else asup (k - 1)%nat * at2 y (k - c0 - 1) 0) = b2 k).
    { intros k H1 H2. specialize (E (k - c0)%nat 0%nat H2 ltac:(cbn; lia)). rewrite (tri_row ab (fun j => at2 y j 0) (k - c0) n eq_refl H2) in E.
      cbn [ab bb at2 Nat.eqb] in E. replace (k - c0 + c0)%nat with k in E by lia. rewrite <- E.
      destruct (Nat.eqb_spec (k - c0) 0); [reflexivity|]. replace (k - c0 - 1 + c0)%nat with (k - 1)%nat by lia. reflexivity. }
    clear E. injection EV as <-.
    destruct lo as [u|], hi as [w|]; cbn [is_some] in c0, c1; subst c0 c1 b1 b2; cbn [andb is_some] in *.
    - split; [intros ? [= <-]; reflexivity|]. split.
      { intros ? [= <-]. destruct (Nat.eqb_spec (nun - 1) 0); [lia|]. rewrite Nat.eqb_refl. reflexivity. }
      intros k Hk H0 H1. assert (k <> 0%nat) by (intros ->; discriminate (H0 eq_refl)).
      assert (k <> (nun - 1)%nat) by (intros ->; discriminate (H1 eq_refl)).
      specialize (EQ k ltac:(lia) ltac:(unfold n; lia)). unfold trow.
      destruct (Nat.eqb_spec k 0); [lia|]. destruct (Nat.eqb_spec k (nun - 1)); [lia|].
      destruct (Nat.ltb_spec (S k) nun); [|lia]. destruct (Nat.eqb_spec (S k) 0); [lia|].
      replace (S (k - 1)) with k in EQ by lia. replace (S k - 1)%nat with k by lia.
      assert (n = (nun - 2)%nat) by (unfold n; lia).
      destruct (Nat.eqb_spec (S k) (nun - 1)) as [e|e]; destruct (Nat.eqb_spec k (nun - 2)) as [e'|e']; try lia;
      destruct (Nat.eqb_spec (k - 1) 0) as [e2|e2]; destruct (Nat.eqb_spec k 1) as [e3|e3]; try lia;
      destruct (Nat.ltb_spec k n); try lia; numR;
      destruct (Nat.eqb_spec (k - 1) (nun - 1)); try lia;
      try (match type of e' with k = _ => rewrite <- e' in EQ end); try (rewrite e3 in *; cbn [Nat.sub] in EQ |- *); lra.
    - split; [intros ? [= <-]; reflexivity|]. split; [discriminate|].
      intros k Hk H0 H1. assert (k <> 0%nat) by (intros ->; discriminate (H0 eq_refl)).
      specialize (EQ k ltac:(lia) ltac:(unfold n; lia)). unfold trow.
      destruct (Nat.eqb_spec k 0); [lia|]. destruct (Nat.eqb_spec (S k) 0); [lia|].
      replace (S (k - 1)) with k in EQ by lia. replace (S k - 1)%nat with k by lia.
      assert (n = (nun - 1)%nat) by (unfold n; lia).
      destruct (Nat.ltb_spec (S k) nun); destruct (Nat.ltb_spec k n); try lia;
      destruct (Nat.eqb_spec (k - 1) 0) as [e2|e2]; destruct (Nat.eqb_spec k 1) as [e3|e3]; try lia; numR;
      try (subst k; cbn [Nat.sub] in EQ |- *); lra.
    - split; [discriminate|]. split.
      { intros ? [= <-]. rewrite Nat.eqb_refl. reflexivity. }
      intros k Hk H0 H1. assert (k <> (nun - 1)%nat) by (intros ->; discriminate (H1 eq_refl)).
      specialize (EQ k ltac:(lia) ltac:(unfold n; lia)). unfold trow. rewrite !Nat.sub_0_r in EQ.
      destruct (Nat.eqb_spec k (nun - 1)); [lia|].
      destruct (Nat.ltb_spec (S k) nun); [|lia]. assert (n = (nun - 1)%nat) by (unfold n; lia).
      destruct (Nat.eqb_spec (S k) (nun - 1)) as [e|e]; destruct (Nat.eqb_spec k (nun - 2)) as [e'|e']; try lia;
      destruct (Nat.ltb_spec (S k) n); try lia; destruct (Nat.eqb_spec k 0); numR;
      destruct (Nat.eqb_spec (k - 1) (nun - 1)); try lia; try (rewrite <- e' in EQ); lra.
    - split; [discriminate|]. split; [discriminate|]. intros k Hk _ _.
      specialize (EQ k ltac:(lia) ltac:(unfold n; lia)). unfold trow. rewrite !Nat.sub_0_r in EQ.
      assert (n = nun)%nat as EN by (unfold n; lia). rewrite EN in EQ. exact EQ.
  Qed.
  Lemma plfitter_per_ok v : plfitter sh sb s nun adiag asup b None None true = Ok v ->
    (3 <= nun)%nat /\ v (nun - 1)%nat = v 0%nat /\ trow v 0 + trow v (nun - 1)%nat = b 0%nat + b (nun - 1)%nat /\
    forall k, (0 < k < nun - 1)%nat -> trow v k = b k.
  Proof using Hnun Hsb Hs.
    unfold plfitter. cbv zeta. set (ab := Arr2 2 (nun - 1) _). set (bb := Arr2 (nun - 1) 1 _).
    intros E. apply bind_ok in E as (y & E & EV).
    apply (solves_periodic_low sb s 1%nat ab bb y Hsb Hs eq_refl (le_n 1) eq_refl) in E as (L & _ & _ & E). cbn [ab bb nc] in E, L.
    split; [lia|]. injection EV as <-. rewrite Nat.eqb_refl. destruct (Nat.eqb_spec 0 (nun - 1)); [lia|]. split; [reflexivity|].
    assert (EQ := fun k Hk => E k 0%nat Hk ltac:(cbn; lia)). clear E.
    assert (EQ' : forall k, (k < nun - 1)%nat -> _) by (intros k Hk; pose proof (EQ k Hk) as Q;
      rewrite (tri_cyc_row ab (fun j => at2 y j 0) k (nun - 1) eq_refl ltac:(lia) Hk) in Q; exact Q). clear EQ.
    cbn [ab bb at2] in EQ'. change (1 =? 0)%nat with false in EQ'. change (0 =? 0)%nat with true in EQ'. cbv iota in EQ'. unfold trow.
    split.
    - specialize (EQ' 0%nat ltac:(lia)). change (0 =? 0)%nat with true in EQ'. cbv iota in EQ'.
      destruct (Nat.eqb_spec 1 (nun - 1)); [lia|]. destruct (Nat.ltb_spec 1 nun); [|lia].
      destruct (Nat.ltb_spec (S (nun - 1)) nun); [lia|]. destruct (Nat.eqb_spec 0 (nun - 1)); [lia|].
      destruct (Nat.eqb_spec (nun - 1) 0); [lia|]. change (0 =? 0)%nat with true. cbv iota. destruct (Nat.eqb_spec (nun - 1 - 1) (nun - 1)); [lia|].
      rewrite Nat.eqb_refl. numR; lra.
    - intros k Hk. specialize (EQ' k ltac:(lia)). destruct (Nat.eqb_spec k 0); [lia|]. destruct (Nat.eqb_spec k (nun - 1)); [lia|].
      destruct (Nat.ltb_spec (S k) nun); [|lia]. destruct (Nat.eqb_spec (k - 1) (nun - 1)); [lia|]. 
      destruct (Nat.eqb_spec (S k) (nun - 1)) as [e|e]; numR; lra.
  Qed.
End Plfitter.

(* --- the normal equations of a weighted sum of squares ----------------------------------------- *)
Lemma lsq_min N (w r l : nat -> R) : (forall t, (t < N)%nat -> 0 <= w t) ->
  rsum N (fun t => w t * r t * l t) = 0 ->
  rsum N (fun t => w t * (r t * r t)) <= rsum N (fun t => w t * ((r t + l t) * (r t + l t))).
Proof.
  intros Hw H. replace (rsum N (fun t => w t * ((r t + l t) * (r t + l t)))) with
    (rsum N (fun t => w t * (r t * r t)) + 2 * rsum N (fun t => w t * r t * l t) + rsum N (fun t => w t * (l t * l t))).
  - rewrite H. assert (0 <= rsum N (fun t => w t * (l t * l t))); [|lra].
    apply rsum_nonneg. intros t Ht. apply Rmult_le_pos; [auto|]. apply Rle_0_sqr.
  - rewrite <- rsum_scal, <- !rsum_plus. apply rsum_ext. intros t _. ring.
Qed.
Section PlNormal.
  Variables N nun : nat.
  Variable ix : nat -> nat.
  Variables w p q : nat -> R.
  Hypothesis Hix : forall t, (t < N)%nat -> (S (ix t) < nun)%nat.
  Definition pl_diag (k : nat) : R := bincount N ix (fun t => w t * q t * q t) k + bincount N (fun t => 1 + ix t)%nat (fun t => w t * p t * p t) k.
  Definition pl_sup : nat -> R := bincount N ix (fun t => w t * p t * q t).
  Definition pl_b (y : nat -> R) (k : nat) : R := bincount N ix (fun t => w t * q t * y t) k + bincount N (fun t => 1 + ix t)%nat (fun t => w t * p t * y t) k.
  (* the value at point t of the polyline with knot values v *)
  Definition pl_at (v : nat -> R) (t : nat) : R := q t * v (ix t) + p t * v (S (ix t)).
  Lemma pl_row v y k : (k < nun)%nat -> trow nun pl_diag pl_sup v k - pl_b y k =
    rsum N (fun t => w t * (pl_at v t - y t) * ((if (ix t =? k)%nat then q t else 0) + (if (S (ix t) =? k)%nat then p t else 0))).
  Proof using Hix.
    intros Hk. unfold trow, pl_diag, pl_sup, pl_b. rewrite Rmult_plus_distr_r, !bincount_scal, !bincount_R. symmetry.
    rewrite (rsum_ext N _ (fun t =>
       (if (ix t =? k)%nat then w t * q t * q t * v k else 0) + (if (1 + ix t =? k)%nat then w t * p t * p t * v k else 0) +
       (if (S k <? nun)%nat then if (ix t =? k)%nat then w t * p t * q t * v (S k) else 0 else 0) +
       (if (k =? 0)%nat then 0 else if (ix t =? k - 1)%nat then w t * p t * q t * v (k - 1)%nat else 0) -
       ((if (ix t =? k)%nat then w t * q t * y t else 0) + (if (1 + ix t =? k)%nat then w t * p t * y t else 0)))).
    - rewrite rsum_minus, !rsum_plus. f_equal. f_equal; [f_equal|].
      + destruct (S k <? nun)%nat; [reflexivity|]. apply rsum_zero. auto.
      + destruct (k =? 0)%nat; [|reflexivity]. apply rsum_zero. auto.
    - intros t Ht. specialize (Hix t Ht). unfold pl_at. change (1 + ix t)%nat with (S (ix t)).
      destruct (Nat.eqb_spec (ix t) k) as [e|e].
      + destruct (Nat.eqb_spec (S (ix t)) k); [lia|]. destruct (Nat.ltb_spec (S k) nun); [|lia]. rewrite e.
        destruct (Nat.eqb_spec k 0); [lra|]. destruct (Nat.eqb_spec k (k - 1)); [lia|lra].
      + destruct (Nat.eqb_spec (S (ix t)) k) as [e2|e2].
        * rewrite e2. destruct (Nat.eqb_spec k 0); [lia|]. destruct (Nat.eqb_spec (ix t) (k - 1)) as [e3|e3]; [|lia].
          rewrite e3. destruct (Nat.ltb_spec (S k) nun); lra.
        * destruct (Nat.eqb_spec k 0); [destruct (Nat.ltb_spec (S k) nun); lra|].
          destruct (Nat.eqb_spec (ix t) (k - 1)); [lia|]. destruct (Nat.ltb_spec (S k) nun); lra.
  Qed.
  Lemma pl_energy v y d : rsum nun (fun k => d k * (trow nun pl_diag pl_sup v k - pl_b y k)) =
    rsum N (fun t => w t * (pl_at v t - y t) * pl_at d t).
  Proof using Hix.
    rewrite (rsum_ext nun _ (fun k => rsum N (fun t => d k * (w t * (pl_at v t - y t) * ((if (ix t =? k)%nat then q t else 0) + (if (S (ix t) =? k)%nat then p t else 0)))))).
    2:{ intros k Hk. rewrite pl_row, rsum_scal by auto. reflexivity. }
    rewrite rsum_swap. apply rsum_ext. intros t Ht. specialize (Hix t Ht).
    rewrite (rsum_ext nun _ (fun k => (if (k =? ix t)%nat then w t * (pl_at v t - y t) * q t * d k else 0) +
                                      (if (k =? S (ix t))%nat then w t * (pl_at v t - y t) * p t * d k else 0))).
    - rewrite rsum_plus, (rsum_delta nun (ix t) (fun k => w t * (pl_at v t - y t) * q t * d k)),
        (rsum_delta nun (S (ix t)) (fun k => w t * (pl_at v t - y t) * p t * d k)).
      destruct (Nat.ltb_spec (ix t) nun); [|lia]. destruct (Nat.ltb_spec (S (ix t)) nun); [|lia].
      change (pl_at d t) with (q t * d (ix t) + p t * d (S (ix t))). ring.
    - intros k Hk. rewrite !(Nat.eqb_sym k). destruct (_ =? k)%nat, (_ =? k)%nat; ring.
  Qed.
  Lemma pl_quad v : rsum nun (fun k => v k * trow nun pl_diag pl_sup v k) = rsum N (fun t => w t * (pl_at v t * pl_at v t)).
  Proof using Hix.
    pose proof (pl_energy v (fun _ => 0) v) as E. cbv beta in E.
    rewrite (rsum_ext N (fun t => w t * (pl_at v t - 0) * pl_at v t) (fun t => w t * (pl_at v t * pl_at v t))) in E by (intros; ring).
    rewrite <- E. apply rsum_ext. intros k Hk. replace (pl_b (fun _ => 0) k) with 0; [ring|].
    unfold pl_b. rewrite !bincount_R, !rsum_zero; [ring| |]; intros t _; destruct (_ =? k)%nat; ring.
  Qed.
  Lemma pl_optimal v v' y : (forall t, (t < N)%nat -> 0 <= w t) ->
    rsum nun (fun k => (v' k - v k) * (trow nun pl_diag pl_sup v k - pl_b y k)) = 0 ->
    rsum N (fun t => w t * ((pl_at v t - y t) * (pl_at v t - y t))) <= rsum N (fun t => w t * ((pl_at v' t - y t) * (pl_at v' t - y t))).
  Proof using Hix.
    intros Hw H. rewrite (pl_energy v y (fun k => v' k - v k)) in H. apply lsq_min in H; auto. eapply Rle_trans; [exact H|].
    right. apply rsum_ext. intros t _. unfold pl_at. ring.
  Qed.
End PlNormal.

(* --- when the systems are solvable -------------------------------------------------------------- *)
Lemma trow_shift nun adiag asup c0 n (u : nat -> R) (v : nat -> R) i : (c0 + n <= nun)%nat -> (i < n)%nat ->
  (forall k, (k < c0)%nat -> v k = 0) -> (forall k, (c0 + n <= k)%nat -> v k = 0) -> (forall j, (j < n)%nat -> v (c0 + j)%nat = u j) ->
  rsum n (fun j => hlow 1 (Arr2 2 n (fun r j => if (r =? 0)%nat then adiag (j + c0)%nat else asup (j + c0)%nat)) i j * u j) =
  trow nun adiag asup v (c0 + i).
Proof.
  intros Hn Hi H1 H2 H3. rewrite (tri_row (Arr2 2 n _) u i n eq_refl Hi). cbn [at2]. change (0 =? 0)%nat with true. change (1 =? 0)%nat with false. cbv iota.
  unfold trow. rewrite H3 by auto. replace (i + c0)%nat with (c0 + i)%nat by lia. f_equal; [f_equal|].
  - destruct (Nat.ltb_spec (S i) n).
    + destruct (Nat.ltb_spec (S (c0 + i)) nun); [|lia]. replace (S (c0 + i)) with (c0 + S i)%nat by lia. rewrite H3 by auto. reflexivity.
    + rewrite H2 by lia. destruct (S (c0 + i) <? nun)%nat; lra.
  - destruct (Nat.eqb_spec i 0).
    + destruct (Nat.eqb_spec (c0 + i) 0); [reflexivity|]. rewrite H1 by lia. lra.
    + destruct (Nat.eqb_spec (c0 + i) 0); [lia|]. replace (c0 + i - 1)%nat with (c0 + (i - 1))%nat by lia. rewrite H3 by lia.
      replace (i - 1 + c0)%nat with (c0 + (i - 1))%nat by lia. reflexivity.
Qed.
Lemma rsum_window nun c0 n (f : nat -> R) : (c0 + n <= nun)%nat -> (forall k, (k < c0)%nat -> f k = 0) ->
  (forall k, (c0 + n <= k)%nat -> f k = 0) -> rsum nun f = rsum n (fun i => f (c0 + i)%nat).
Proof.
  intros H H1 H2. rewrite (rsum_cut (c0 + n) nun) by (auto; intros; apply H2; lia). rewrite rsum_split, rsum_zero by auto. lra.
Qed.
Section Complete.
  Variable sh : arr2 R -> arr2 R -> res (arr2 R).
  Variable sb : nat -> nat -> arr2 R -> arr2 R -> res (arr2 R).
  Variable s : arr2 R -> arr2 R -> res (arr2 R).
  Variable nun : nat.
  Variables adiag asup b : nat -> R.
  Hypothesis Hnun : (2 <= nun)%nat.
  Lemma plfitter_complete lo hi : solveh_complete sh -> (lo = None \/ hi = None \/ 3 <= nun)%nat ->
    (forall v, (lo <> None -> v 0%nat = 0) -> (hi <> None -> v (nun - 1)%nat = 0) -> (exists k, (k < nun)%nat /\ v k <> 0) ->
       0 < rsum nun (fun k => v k * trow nun adiag asup v k)) ->
    exists v, plfitter sh sb s nun adiag asup b lo hi false = Ok v.
  Proof using Hnun.
    intros Hc Hlh PD. unfold plfitter. set (c0 := if is_some lo then 1%nat else 0%nat). set (c1 := if is_some hi then 1%nat else 0%nat).
    set (n := (nun - c0 - c1)%nat). cbv zeta.
    set (b1 := match lo with Some v => _ | None => b end). set (b2 := match hi with Some v => _ | None => b1 end).
    assert (C0 : (c0 <= 1)%nat) by (unfold c0; destruct (is_some lo); lia).
    assert (C1 : (c1 <= 1)%nat) by (unfold c1; destruct (is_some hi); lia).
    assert (Ehi : is_some hi && (n =? 0)%nat = false).
    { destruct hi; [|reflexivity]. apply Nat.eqb_neq. unfold n, c0, c1. cbn [is_some]. destruct lo; cbn [is_some]; [|lia].
      destruct Hlh as [Q|[Q|Q]]; [discriminate|discriminate|lia]. }
    rewrite Ehi. set (ab := Arr2 2 n _). set (bb := Arr2 n 1 _).
    destruct (Hc ab bb 1%nat eq_refl eq_refl) as [y E].
    2:{ rewrite E. cbn [bind]. eexists. reflexivity. }
    cbn [ab nc]. intros u (j & Hj & Huj).
    set (v := fun k => if ((c0 <=? k) && (k <? c0 + n))%nat then u (k - c0)%nat else 0).
    assert (V1 : forall k, (k < c0)%nat -> v k = 0) by (intros k Hk; unfold v; destruct (Nat.leb_spec c0 k); [lia|reflexivity]).
    assert (V2 : forall k, (c0 + n <= k)%nat -> v k = 0).
    { intros k Hk. unfold v. destruct (Nat.ltb_spec k (c0 + n)); [lia|]. rewrite andb_false_r. reflexivity. }
    assert (V3 : forall i, (i < n)%nat -> v (c0 + i)%nat = u i).
    { intros i Hi. unfold v. destruct (Nat.leb_spec c0 (c0 + i)); [|lia]. destruct (Nat.ltb_spec (c0 + i) (c0 + n)); [|lia].
      cbn [andb]. f_equal. lia. }
    assert (HN : (c0 + n <= nun)%nat) by (unfold n; lia).
    rewrite (rsum_ext n _ (fun i => v (c0 + i)%nat * trow nun adiag asup v (c0 + i))).
    2:{ intros i Hi. rewrite V3 by auto. f_equal. apply (trow_shift nun adiag asup c0 n u v i); auto. }
    rewrite <- (rsum_window nun c0 n (fun k => v k * trow nun adiag asup v k)); auto.
    2:{ intros k Hk. rewrite V1 by auto. lra. } 2:{ intros k Hk. rewrite V2 by auto. lra. }
    apply PD.
    - intros Hl. apply V1. unfold c0. destruct lo; [cbn; lia|congruence].
    - intros Hh. apply V2. unfold n, c1. destruct hi; [cbn [is_some]; lia|congruence].
    - exists (c0 + j)%nat. split; [lia|]. rewrite V3; auto.
  Qed.
  Lemma posdef_nonsing n a : posdef n a -> nonsing n a.
  Proof using.
    intros P v H j Hj. destruct (Req_dec (v j) 0) as [|Hne]; auto. exfalso.
    specialize (P v (ex_intro _ j (conj Hj Hne))). rewrite rsum_zero in P; [lra|]. intros i Hi. rewrite H by auto. lra.
  Qed.
  (* periodic: the matrix with and without its corners must be positive definite *)
  Lemma plfitter_per_complete : banded_spec sb -> dense_spec s -> banded_complete sb -> dense_complete s -> (3 <= nun)%nat ->
    (forall v, v (nun - 1)%nat = v 0%nat -> (exists k, (k < nun)%nat /\ v k <> 0) ->
       0 < rsum nun (fun k => v k * trow nun adiag asup v k) /\
       0 < rsum nun (fun k => v k * trow nun adiag asup v k) - 2 * asup (nun - 2)%nat * v (nun - 2)%nat * v 0%nat) ->
    exists v, plfitter sh sb s nun adiag asup b None None true = Ok v.
  Proof using Hnun.
    intros S1 S2 C1 C2 Hn PD. unfold plfitter. cbv zeta. set (ab := Arr2 2 (nun - 1) _). set (bb := Arr2 (nun - 1) 1 _).
    set (n := (nun - 1)%nat) in *.
    destruct (solves_periodic_low_complete sb s 1 ab bb S1 S2 C1 C2) as [y E]; try reflexivity; cbn [ab nc]; try lia.
    3:{ rewrite E. cbn [bind]. eexists. reflexivity. }
    - apply posdef_nonsing. intros u (j & Hj & Huj).
      set (v := fun k => if (k =? n)%nat then u 0%nat else u k).
      assert (Vn : v n = v 0%nat). { unfold v. rewrite Nat.eqb_refl. destruct (0 =? n)%nat; reflexivity. }
      destruct (PD v Vn) as [_ P]. { exists j. split; [lia|]. unfold v. destruct (Nat.eqb_spec j n); [lia|auto]. }
      eapply Rlt_le_trans; [exact P|]. right. replace nun with (S n) at 1 by lia. cbn [rsum].
      rewrite (rsum_ext n (fun i => u i * _) (fun i => v i * trow nun adiag asup v i + (if (i =? 0)%nat then adiag n * u 0%nat * u 0%nat else 0)
         - (if (i =? n - 1)%nat then u (n - 1)%nat * (asup (n - 1)%nat * u 0%nat) else 0))).
      + rewrite rsum_minus, rsum_plus, (rsum_delta n 0 (fun _ => adiag n * u 0%nat * u 0%nat)),
          (rsum_delta n (n - 1) (fun _ => u (n - 1)%nat * (asup (n - 1)%nat * u 0%nat))).
        destruct (Nat.ltb_spec 0 n); [|lia]. destruct (Nat.ltb_spec (n - 1) n); [|lia].
        unfold trow at 2. destruct (Nat.ltb_spec (S n) nun); [lia|]. destruct (Nat.eqb_spec n 0); [lia|].
        replace (nun - 2)%nat with (n - 1)%nat by lia. rewrite Vn.
        assert (v 0%nat = u 0%nat) as -> by (unfold v; destruct (0 =? n)%nat; reflexivity).
        assert (v (n - 1)%nat = u (n - 1)%nat) as -> by (unfold v; destruct (Nat.eqb_spec (n - 1) n); [lia|reflexivity]). ring.
      + intros i Hi. rewrite (tri_row ab u i n eq_refl Hi). unfold trow. cbn [ab at2]. change (0 =? 0)%nat with true. change (1 =? 0)%nat with false. cbv iota.
        assert (Vi : v i = u i) by (unfold v; destruct (Nat.eqb_spec i n); [lia|reflexivity]). rewrite Vi.
        destruct (Nat.ltb_spec (S i) nun); [|lia].
        assert (VS : v (S i) = if (i =? n - 1)%nat then u 0%nat else u (S i)).
        { unfold v. destruct (Nat.eqb_spec (S i) n), (Nat.eqb_spec i (n - 1)); try lia; reflexivity. }
        assert (Vm : v (i - 1)%nat = u (i - 1)%nat) by (unfold v; destruct (Nat.eqb_spec (i - 1) n); [lia|reflexivity]).
        rewrite VS, Vm. destruct (Nat.eqb_spec i (n - 1)) as [e|e]; destruct (Nat.ltb_spec (S i) n); try lia;
          destruct (Nat.eqb_spec i 0); try lia; numR; try rewrite <- e; try (subst i; replace (nun - 1)%nat with n by lia); ring.
    - apply posdef_nonsing. intros u (j & Hj & Huj).
      set (v := fun k => if (k =? n)%nat then u 0%nat else u k).
      assert (Vn : v n = v 0%nat). { unfold v. rewrite Nat.eqb_refl. destruct (0 =? n)%nat; reflexivity. }
      destruct (PD v Vn) as [P _]. { exists j. split; [lia|]. unfold v. destruct (Nat.eqb_spec j n); [lia|auto]. }
      eapply Rlt_le_trans; [exact P|]. right. replace nun with (S n) at 1 by lia. cbn [rsum].
      rewrite (rsum_ext n (fun i => u i * _) (fun i => v i * trow nun adiag asup v i +
         (if (i =? 0)%nat then u 0%nat * (adiag n * u 0%nat + asup (n - 1)%nat * u (n - 1)%nat) else 0))).
      + rewrite rsum_plus, (rsum_delta n 0 (fun _ => u 0%nat * (adiag n * u 0%nat + asup (n - 1)%nat * u (n - 1)%nat))).
        destruct (Nat.ltb_spec 0 n); [|lia].
        unfold trow at 2. destruct (Nat.ltb_spec (S n) nun); [lia|]. destruct (Nat.eqb_spec n 0); [lia|]. rewrite Vn.
        assert (v 0%nat = u 0%nat) as -> by (unfold v; destruct (0 =? n)%nat; reflexivity).
        assert (v (n - 1)%nat = u (n - 1)%nat) as -> by (unfold v; destruct (Nat.eqb_spec (n - 1) n); [lia|reflexivity]). ring.
      + intros i Hi. rewrite (tri_cyc_row ab u i n eq_refl ltac:(lia) Hi). unfold trow. cbn [ab at2].
        change (0 =? 0)%nat with true. change (1 =? 0)%nat with false. cbv iota.
        assert (Vi : v i = u i) by (unfold v; destruct (Nat.eqb_spec i n); [lia|reflexivity]). rewrite Vi.
        destruct (Nat.ltb_spec (S i) nun); [|lia].
        assert (VS : v (S i) = if (S i =? n)%nat then u 0%nat else u (S i)) by reflexivity.
        assert (Vm : v (i - 1)%nat = u (i - 1)%nat) by (unfold v; destruct (Nat.eqb_spec (i - 1) n); [lia|reflexivity]).
        rewrite VS, Vm. destruct (Nat.eqb_spec (S i) n) as [e|e]; destruct (Nat.eqb_spec i 0) as [e0|e0]; try lia; numR;
          try (rewrite e0; replace (nun - 1)%nat with n by lia); ring.
  Qed.
End Complete.
