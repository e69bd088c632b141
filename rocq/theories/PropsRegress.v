(* C62, C63, C64: regress (npplus/lsqfit.py:44-156). *)
From Coq Require Import List Arith ZArith Bool Lia Reals Lra.
From Verif Require Import Num PyBase NdArray NdLemmas PwPoly RSum SolvePer SolveProofs LsqModel.
Import ListNotations.
Local Open Scope R_scope.

(* ---- specification ---- *)

(* thin singular value decomposition m = u diag(s) v *)
Definition is_svd (m u : arr2 R) (s : list R) (v : arr2 R) : Prop :=
  let k := Nat.min (nr m) (SolvePer.nc m) in
  (nr u = nr m /\ SolvePer.nc u = k /\ length s = k /\ nr v = k /\ SolvePer.nc v = SolvePer.nc m) /\
  (forall q, (q < k)%nat -> 0 <= nth q s 0) /\
  (forall q q', (q <= q' < k)%nat -> nth q' s 0 <= nth q s 0) /\
  (forall q q', (q < k)%nat -> (q' < k)%nat ->
     rsum (nr m) (fun i => at2 u i q * at2 u i q') = if (q =? q')%nat then 1 else 0) /\
  (forall q q', (q < k)%nat -> (q' < k)%nat ->
     rsum (SolvePer.nc m) (fun t => at2 v q t * at2 v q' t) = if (q =? q')%nat then 1 else 0) /\
  (forall i t, (i < nr m)%nat -> (t < SolvePer.nc m)%nat ->
     at2 m i t = rsum k (fun q => at2 u i q * nth q s 0 * at2 v q t)).
Definition svd_sound (svd : arr2 R -> res (arr2 R * list R * arr2 R)) : Prop :=
  forall m u s v, svd m = Ok (u, s, v) -> is_svd m u s v.
Definition svd_total (svd : arr2 R -> res (arr2 R * list R * arr2 R)) : Prop :=
  forall m, (0 < nr m)%nat -> (0 < SolvePer.nc m)%nat -> exists usv, svd m = Ok usv.

(* the t-th data point, component of the model and standard deviation, t counting
   the points of data in C order *)
Definition npts (data : nd R) : nat := size (shp data).
Definition dpt (data : nd R) (t : nat) : R := get data (unravel (shp data) t).
Definition mpt (data : nd R) (mdl : list (nd R)) (i t : nat) : R :=
  bget (nth i mdl (scalar 0)) (unravel (shp data) t).
Definition ept (errs : option (nd R)) (t : nat) : R :=
  match errs with None => 1 | Some e => bget e [t] end.
(* each component is conformable with data; errs is conformable with the raveled
   data (a number or one number per point) and nowhere zero *)
Definition mdl_ok (data : nd R) (mdl : list (nd R)) : Prop :=
  forall mi, In mi mdl -> bto (shp mi) (shp data) = true.
Definition errs_ok (data : nd R) (errs : option (nd R)) : Prop :=
  match errs with
  | None => True
  | Some e => bto (shp e) [npts data] = true /\ forall t, (t < npts data)%nat -> bget e [t] <> 0
  end.
(* model value and sum of squares for coefficients q *)
Definition mval (data : nd R) (mdl : list (nd R)) (q : nat -> R) (t : nat) : R :=
  rsum (length mdl) (fun i => q i * mpt data mdl i t).
Definition cost (data : nd R) (mdl : list (nd R)) (errs : option (nd R)) (q : nat -> R) : R :=
  rsum (npts data) (fun t => ((mval data mdl q t - dpt data t) / ept errs t) ^ 2).
Definition norm2 (n : nat) (q : nat -> R) : R := rsum n (fun i => (q i) ^ 2).
(* the matrix whose singular values matter: components over errs *)
Definition wmat (data : nd R) (mdl : list (nd R)) (errs : option (nd R)) : arr2 R :=
  Arr2 (length mdl) (npts data) (fun i t => mpt data mdl i t / ept errs t).
Definition rcond_of (rcond : option R) : R :=
  Rmin (Rmax (match rcond with None => / 10 ^ 9 | Some r => r end) (/ 10 ^ 13)) (/ 2).
Definition kept (rcond : option R) (s : list R) (q : nat) : Prop := rcond_of rcond * nth 0 s 0 < nth q s 0.
Definition same2 (a b : arr2 R) : Prop :=
  nr a = nr b /\ SolvePer.nc a = SolvePer.nc b /\
  forall i t, (i < nr a)%nat -> (t < SolvePer.nc a)%nat -> at2 a i t = at2 b i t.
(* the decomposition computed by svd for that matrix drops no non-zero singular value *)
Definition no_cut (svd : arr2 R -> res (arr2 R * list R * arr2 R)) (data : nd R) (mdl : list (nd R))
           (errs : option (nd R)) (rcond : option R) : Prop :=
  forall m u s v, same2 m (wmat data mdl errs) -> svd m = Ok (u, s, v) ->
  forall q, (q < length s)%nat -> nth q s 0 = 0 \/ kept rcond s q.
Definition udot (n : nat) (u : arr2 R) (q : nat) (h : nat -> R) : R := rsum n (fun i => at2 u i q * h i).

(* ---- linear algebra ---- *)
Section Alg.
  Variables (n N k : nat) (U : nat -> nat -> R) (s : nat -> R) (V : nat -> nat -> R) (M : nat -> nat -> R) (b : nat -> R)
            (keep : nat -> bool).
  Hypothesis HU : forall q q', (q < k)%nat -> (q' < k)%nat -> rsum n (fun i => U i q * U i q') = if (q =? q')%nat then 1 else 0.
  Hypothesis HV : forall q q', (q < k)%nat -> (q' < k)%nat -> rsum N (fun t => V q t * V q' t) = if (q =? q')%nat then 1 else 0.
  Hypothesis HM : forall i t, (i < n)%nat -> (t < N)%nat -> M i t = rsum k (fun q => U i q * s q * V q t).
  Hypothesis Hk : forall q, (q < k)%nat -> keep q = true -> s q <> 0.
  Let c q := rsum N (fun t => V q t * b t).
  Let rs q := if keep q then / s q else 0.
  Let p i := rsum k (fun q => U i q * rs q * c q).
  Let a (h : nat -> R) q := rsum n (fun i => U i q * h i).

  Lemma alg_mv h t : (t < N)%nat -> rsum n (fun i => h i * M i t) = rsum k (fun q => s q * a h q * V q t).
  Proof using HM.
    intros Ht. rewrite (rsum_ext n _ (fun i => rsum k (fun q => U i q * h i * (s q * V q t)))).
    - rewrite rsum_swap. apply rsum_ext. intros q Hq. rewrite rsum_scal_r. unfold a. ring.
    - intros i Hi. rewrite HM by auto. rewrite <- rsum_scal. apply rsum_ext. intros. ring.
  Qed.
  Lemma alg_up q : (q < k)%nat -> a p q = rs q * c q.
  Proof using HU.
    intros Hq. unfold a, p. rewrite (rsum_ext n _ (fun i => rsum k (fun q' => U i q * U i q' * (rs q' * c q')))).
    - rewrite rsum_swap. rewrite (rsum_ext k _ (fun q' => if (q' =? q)%nat then rs q' * c q' else 0)).
      + rewrite rsum_delta. destruct (Nat.ltb_spec q k); [reflexivity|lia].
      + intros q' Hq'. rewrite rsum_scal_r, HU by auto. rewrite Nat.eqb_sym. destruct (q' =? q)%nat; ring.
    - intros i Hi. rewrite <- rsum_scal. apply rsum_ext. intros. ring.
  Qed.
  Lemma alg_fit t : (t < N)%nat -> rsum n (fun i => p i * M i t) = rsum k (fun q => if keep q then c q * V q t else 0).
  Proof using HU HM Hk.
    intros Ht. rewrite alg_mv by auto. apply rsum_ext. intros q Hq. rewrite alg_up by auto. unfold rs.
    destruct (keep q) eqn:E; [|ring]. field. auto.
  Qed.
  Lemma alg_res q : (q < k)%nat -> keep q = true ->
    rsum N (fun t => (rsum n (fun i => p i * M i t) - b t) * V q t) = 0.
  Proof using HU HV HM Hk.
    intros Hq E.
    rewrite (rsum_ext N _ (fun t => rsum k (fun q' => (if keep q' then c q' else 0) * (V q' t * V q t)) - V q t * b t)).
    - rewrite rsum_minus, rsum_swap. fold (c q).
      rewrite (rsum_ext k _ (fun q' => if (q' =? q)%nat then (if keep q' then c q' else 0) else 0)).
      + rewrite rsum_delta, E. destruct (Nat.ltb_spec q k); [ring|lia].
      + intros q' Hq'. rewrite rsum_scal, HV by auto. destruct (q' =? q)%nat; ring.
    - intros t Ht. rewrite alg_fit by auto. rewrite Rmult_minus_distr_r, <- rsum_scal_r. f_equal; [|ring].
      apply rsum_ext. intros q' Hq'. destruct (keep q'); ring.
  Qed.
  (* directions with a non-zero singular value that is dropped *)
  Definition alg_free (h : nat -> R) := forall q, (q < k)%nat -> keep q = false -> s q * a h q = 0.
  Lemma alg_orth h : alg_free h ->
    rsum N (fun t => (rsum n (fun i => p i * M i t) - b t) * rsum n (fun i => h i * M i t)) = 0.
  Proof using HU HV HM Hk.
    intros Hh. set (r := fun t => rsum n (fun i => p i * M i t) - b t).
    rewrite (rsum_ext N _ (fun t => rsum k (fun q => s q * a h q * (r t * V q t)))).
    - rewrite rsum_swap. apply rsum_zero. intros q Hq. rewrite rsum_scal.
      destruct (keep q) eqn:E.
      + unfold r. rewrite alg_res by auto. ring.
      + rewrite Hh by auto. ring.
    - intros t Ht. rewrite (alg_mv h t Ht). change (rsum n (fun i => p i * M i t) - b t) with (r t). rewrite <- rsum_scal. apply rsum_ext. intros. ring.
  Qed.
  Lemma alg_free_p : alg_free p.
  Proof using HU. intros q Hq E. rewrite alg_up by auto. unfold rs. rewrite E. ring. Qed.
  Lemma alg_free_sub h h' : alg_free h -> alg_free h' -> alg_free (fun i => h i - h' i).
  Proof using.
    intros H1 H2 q Hq E. specialize (H1 q Hq E). specialize (H2 q Hq E). unfold a in *.
    rewrite (rsum_ext n _ (fun i => U i q * h i - U i q * h' i)) by (intros; ring).
    rewrite rsum_minus. lra.
  Qed.
  Lemma alg_pyth q : alg_free q ->
    rsum N (fun t => (rsum n (fun i => q i * M i t) - b t) ^ 2) =
    rsum N (fun t => (rsum n (fun i => p i * M i t) - b t) ^ 2)
    + rsum N (fun t => (rsum n (fun i => (q i - p i) * M i t)) ^ 2).
  Proof using HU HV HM Hk.
    intros Hq. pose proof (alg_orth (fun i => q i - p i) (alg_free_sub q p Hq alg_free_p)) as O.
    rewrite <- rsum_plus.
    rewrite (rsum_ext N (fun t => (rsum n (fun i => q i * M i t) - b t) ^ 2)
      (fun t => ((rsum n (fun i => p i * M i t) - b t) ^ 2 + (rsum n (fun i => (q i - p i) * M i t)) ^ 2)
         + 2 * ((rsum n (fun i => p i * M i t) - b t) * rsum n (fun i => (q i - p i) * M i t)))).
    - rewrite rsum_plus, rsum_scal, O. ring.
    - intros t Ht. rewrite (rsum_ext n (fun i => (q i - p i) * M i t) (fun i => q i * M i t - p i * M i t)) by (intros; ring).
      rewrite rsum_minus. ring.
  Qed.
  Lemma alg_min q : alg_free q ->
    rsum N (fun t => (rsum n (fun i => p i * M i t) - b t) ^ 2) <=
    rsum N (fun t => (rsum n (fun i => q i * M i t) - b t) ^ 2).
  Proof using HU HV HM Hk.
    intros Hq. rewrite (alg_pyth q Hq).
    pose proof (rsum_nonneg N (fun t => (rsum n (fun i => (q i - p i) * M i t)) ^ 2) (fun t _ => pow2_ge_0 _)). lra.
  Qed.
  (* a best q differs from p by a vector orthogonal to every kept direction *)
  Lemma alg_tie q : alg_free q ->
    rsum N (fun t => (rsum n (fun i => q i * M i t) - b t) ^ 2) <=
    rsum N (fun t => (rsum n (fun i => p i * M i t) - b t) ^ 2) ->
    norm2 n q = norm2 n p + norm2 n (fun i => q i - p i).
  Proof using HU HV HM Hk.
    intros Hq Hle. rewrite (alg_pyth q Hq) in Hle.
    assert (Z : forall t, (t < N)%nat -> rsum n (fun i => (q i - p i) * M i t) = 0).
    { intros t Ht. pose proof (rsum_nonneg_0 N (fun t => (rsum n (fun i => (q i - p i) * M i t)) ^ 2) (fun t _ => pow2_ge_0 _)) as Z.
      assert (H0 := rsum_nonneg N (fun t => (rsum n (fun i => (q i - p i) * M i t)) ^ 2) (fun t _ => pow2_ge_0 _)).
      specialize (Z ltac:(lra) t Ht). cbn beta in Z. nra. }
    set (h := fun i => q i - p i) in *.
    assert (A0 : forall r, (r < k)%nat -> keep r = true -> a h r = 0).
    { intros r Hr E.
      assert (S0 : rsum N (fun t => rsum n (fun i => h i * M i t) * V r t) = s r * a h r).
      { rewrite (rsum_ext N _ (fun t => rsum k (fun q' => s q' * a h q' * (V q' t * V r t)))).
        - rewrite rsum_swap. rewrite (rsum_ext k _ (fun q' => if (q' =? r)%nat then s q' * a h q' else 0)).
          + rewrite rsum_delta. destruct (Nat.ltb_spec r k); [reflexivity|lia].
          + intros q' Hq'. rewrite rsum_scal, HV by auto. destruct (q' =? r)%nat; ring.
        - intros t Ht. rewrite alg_mv by auto. rewrite <- rsum_scal_r. apply rsum_ext. intros. ring. }
      rewrite rsum_zero in S0. 2:{ intros t Ht. unfold h. rewrite Z by auto. ring. }
      symmetry in S0. apply Rmult_integral in S0. destruct S0 as [S0|S0]; auto. exfalso. apply (Hk r Hr E S0). }
    assert (PH : rsum n (fun i => p i * h i) = 0).
    { unfold p. rewrite (rsum_ext n _ (fun i => rsum k (fun r => rs r * c r * (U i r * h i)))).
      - rewrite rsum_swap. apply rsum_zero. intros r Hr. rewrite rsum_scal. fold (a h r). unfold rs.
        destruct (keep r) eqn:E; [rewrite A0 by auto; ring|ring].
      - intros i Hi. rewrite <- rsum_scal_r. apply rsum_ext. intros. ring. }
    unfold norm2. rewrite <- rsum_plus.
    rewrite (rsum_ext n (fun i => q i ^ 2) (fun i => (p i ^ 2 + h i ^ 2) + 2 * (p i * h i))) by (intros; unfold h; ring).
    rewrite rsum_plus, rsum_scal, PH. ring.
  Qed.
  (* p is a linear function of b and pc pc^T is the matrix of its coefficients
     times its transpose *)
  Lemma alg_lin i : p i = rsum N (fun t => rsum k (fun q => U i q * rs q * V q t) * b t).
  Proof using.
    unfold p, c. rewrite (rsum_ext N _ (fun t => rsum k (fun q => U i q * rs q * (V q t * b t)))).
    - rewrite rsum_swap. apply rsum_ext. intros q Hq. rewrite rsum_scal. reflexivity.
    - intros t Ht. rewrite <- rsum_scal_r. apply rsum_ext. intros. ring.
  Qed.
  Lemma alg_cov i j : rsum k (fun q => U i q * rs q * (U j q * rs q)) =
    rsum N (fun t => rsum k (fun q => U i q * rs q * V q t) * rsum k (fun q => U j q * rs q * V q t)).
  Proof using HV.
    rewrite (rsum_ext N _ (fun t => rsum k (fun q => rsum k (fun q' => (U i q * rs q) * (U j q' * rs q') * (V q t * V q' t))))).
    - rewrite rsum_swap. apply rsum_ext. intros q Hq. rewrite rsum_swap.
      rewrite (rsum_ext k _ (fun q' => if (q' =? q)%nat then U i q * rs q * (U j q' * rs q') else 0)).
      + rewrite rsum_delta. destruct (Nat.ltb_spec q k); [reflexivity|lia].
      + intros q' Hq'. rewrite rsum_scal, HV by auto. rewrite Nat.eqb_sym. destruct (q' =? q)%nat; ring.
    - intros t Ht. rewrite <- rsum_scal_r. apply rsum_ext. intros q Hq. rewrite <- rsum_scal. apply rsum_ext. intros. ring.
  Qed.
End Alg.

(* ---- the model computes that ---- *)
Lemma size1 N : size [N] = N. Proof. cbn. lia. Qed.
Lemma bto1_bget {A} (e : nd A) N i t : bto (shp e) [N] = true -> bget e [i; t] = bget e [t].
Proof.
  intros H. apply bto_length in H. unfold bget, bidx. cbn [length] in *.
  destruct (shp e) as [|d [|d' r]]; cbn [length] in H; try lia; reflexivity.
Qed.
Lemma bto_cons s N n : bto s [N] = true -> bto s [n; N] = true.
Proof.
  intros H. pose proof (bto_length _ _ H) as L. destruct s as [|d [|d' r]]; cbn [length] in L; try lia; cbn in *; auto.
Qed.
Lemma rcond_R rcond : rg_rcond rcond = rcond_of rcond.
Proof.
  unfold rg_rcond, rcond_of. rewrite nmin_R, nmax_R. numR.
  destruct rcond as [r|]; (f_equal; [f_equal|]); try reflexivity; rewrite ?Rdiv_1_l; try (f_equal; cbn; lra).
  all: unfold Rdiv; rewrite ?Rmult_1_l; f_equal; cbn; lra.
Qed.
Lemma rcond_range rcond : / 10 ^ 13 <= rcond_of rcond <= / 2.
Proof.
  unfold rcond_of. split; [|apply Rmin_r]. apply Rmin_glb; [apply Rmax_r|].
  apply Rinv_le_contravar; cbn; lra.
Qed.

Definition keepb (rcond : option R) (s : list R) (q : nat) : bool := Rltb (rcond_of rcond * nth 0 s 0) (nth q s 0).
Lemma keepb_spec rcond s q : keepb rcond s q = true <-> kept rcond s q.
Proof. unfold keepb, kept. destruct (Rltb_spec (rcond_of rcond * nth 0 s 0) (nth q s 0)); split; intros; auto; discriminate. Qed.
Lemma kept_pos rcond m u s v q : is_svd m u s v -> (q < length s)%nat -> kept rcond s q -> 0 < nth q s 0.
Proof.
  intros (HS & Hpos & _) Hq Hk. unfold kept in Hk.
  assert (0 <= nth 0 s 0) by (apply Hpos; destruct HS as (_ & _ & L & _); lia).
  pose proof (rcond_range rcond) as HR.
  assert (0 < / 10 ^ 13) by (apply Rinv_0_lt_compat; cbn; lra).
  assert (0 <= rcond_of rcond * nth 0 s 0) by (apply Rmult_le_pos; lra). lra.
Qed.

Definition rsq (rcond : option R) (s : list R) (q : nat) : R := if keepb rcond s q then / nth q s 0 else 0.
Definition bpt (data : nd R) (errs : option (nd R)) (t : nat) : R := dpt data t / ept errs t.
Definition pspec (data : nd R) (errs : option (nd R)) (rcond : option R) (u : arr2 R) (s : list R) (v : arr2 R) (i : nat) : R :=
  rsum (length s) (fun q => at2 u i q * rsq rcond s q * rsum (npts data) (fun t => at2 v q t * bpt data errs t)).

(* what rg_core returns for conformable arguments *)
Record core_ok (data : nd R) (mdl : list (nd R)) (errs : option (nd R)) (rcond : option R)
       (u : arr2 R) (s : list R) (v : arr2 R) (c : rgcore) : Prop := {
  co_b : shp (rg_b c) = [npts data] /\ forall t, (t < npts data)%nat -> get (rg_b c) [t] = bpt data errs t;
  co_r : bto (shp (rg_rstdev c)) [npts data] = true /\
         forall t, (t < npts data)%nat -> bget (rg_rstdev c) [t] = / ept errs t;
  co_m : nr (rg_m c) = length mdl /\ SolvePer.nc (rg_m c) = npts data /\
         forall i t, (i < length mdl)%nat -> (t < npts data)%nat -> at2 (rg_m c) i t = mpt data mdl i t / ept errs t;
  co_u : rg_u c = u; co_s : rg_s c = s;
  co_mask : rg_mask c = map (fun q => keepb rcond s q) (seq 0 (length s));
  co_pc : nr (rg_pc c) = length mdl /\ SolvePer.nc (rg_pc c) = length s /\
          forall i q, (q < length s)%nat -> at2 (rg_pc c) i q = at2 u i q * rsq rcond s q;
  co_p : shp (rg_p c) = [length mdl] /\ forall i, get (rg_p c) [i] = pspec data errs rcond u s v i }.

Lemma is_svd_ext m m' u s v : nr m = nr m' -> SolvePer.nc m = SolvePer.nc m' ->
  (forall i t, (i < nr m)%nat -> (t < SolvePer.nc m)%nat -> at2 m i t = at2 m' i t) -> is_svd m u s v -> is_svd m' u s v.
Proof.
  intros E1 E2 E H. unfold is_svd in *. rewrite <- E1, <- E2. destruct H as (H1 & H2 & H3 & H4 & H5 & H6).
  repeat (split; [assumption|]). intros i t Hi Ht. rewrite <- E by auto. auto.
Qed.

(* the pieces of rg_core before the decomposition *)
Definition rstd (errs : option (nd R)) : nd R := nd_map (fun e => (n1 / e)%K) (match errs with None => scalar n1 | Some e => e end).
Definition wmod (data : nd R) (mdl : list (nd R)) (errs : option (nd R)) : arr2 R :=
  Arr2 (length mdl) (npts data) (fun i t => (n0 + bget (nth i mdl (scalar n0)) (unravel (shp data) t)) * bget (rstd errs) [i; t])%K.
Lemma rstd_ok data errs : errs_ok data errs -> bto (shp (rstd errs)) [npts data] = true /\
  forall t, bget (rstd errs) [t] = / ept errs t.
Proof.
  intros H. unfold rstd, errs_ok in *. destruct errs as [e|]; cbn [nd_map shp].
  - split; [apply H|]. intros t. unfold bget, nd_map, ept. cbn [shp get]. numR. unfold Rdiv. rewrite Rmult_1_l. reflexivity.
  - split; [reflexivity|]. intros t. cbn. numR. field.
Qed.
Lemma wmod_at data mdl errs i t : errs_ok data errs ->
  at2 (wmod data mdl errs) i t = mpt data mdl i t / ept errs t.
Proof.
  intros H. destruct (rstd_ok data errs H) as [B1 B2]. unfold wmod. cbn [at2].
  rewrite (bto1_bget _ (npts data)) by auto. rewrite B2. unfold mpt. numR. unfold Rdiv. rewrite Rplus_0_l. reflexivity.
Qed.
Lemma wmod_svd data mdl errs u s v : errs_ok data errs -> is_svd (wmod data mdl errs) u s v -> is_svd (wmat data mdl errs) u s v.
Proof. intros H. apply is_svd_ext; try reflexivity. intros i t _ _. rewrite wmod_at by auto. reflexivity. Qed.

Lemma rg_core_run svd data mdl errs rcond u s v :
  mdl_ok data mdl -> errs_ok data errs -> svd (wmod data mdl errs) = Ok (u, s, v) ->
  is_svd (wmod data mdl errs) u s v -> (0 < length s)%nat ->
  exists c, rg_core svd data mdl errs rcond = Ok c /\ core_ok data mdl errs rcond u s v c.
Proof.
  intros Hm He Hsvd Hok Hs. destruct (rstd_ok data errs He) as [B1 B2].
  destruct Hok as ((E1 & E2 & E3 & E4 & E5) & _). cbn [nr SolvePer.nc wmod] in *.
  destruct s as [|s0 s']; [cbn in Hs; lia|].
  eexists. split.
  - unfold rg_core, rg_matrix.
    replace (forallb (fun mi => bto (shp mi) (shp data)) mdl) with true.
    2:{ symmetry. apply forallb_forall. intros mi Hi. apply Hm, Hi. }
    cbn [bind nr SolvePer.nc at2]. fold (rstd errs). rewrite rcond_R.
    unfold nd_map2 at 1. cbn [shp nravel].
    rewrite (bshape_of_bto (shp (rstd errs)) [size (shp data)]) by exact B1. cbn [bind].
    rewrite (bto_cons (shp (rstd errs)) (size (shp data)) (length mdl)) by exact B1.
    fold (npts data). fold (wmod data mdl errs). rewrite Hsvd. cbn [bind fst snd].
    unfold dot_mn at 1. cbn [ndim shp length Nat.leb andb nth Nat.sub]. rewrite E5, Nat.eqb_refl. cbn [bind].
    cbn [hd_error of_opt bind].
    unfold dot_mn at 1. cbn [ndim shp length Nat.leb andb nth Nat.sub remove_at nr SolvePer.nc].
    rewrite E2, E4, Nat.eqb_refl. cbn [bind]. reflexivity.
  - set (s := s0 :: s') in *.
    assert (L : (Nat.min (length mdl) (npts data)) = length s) by lia.
    assert (MK : map (fun x => (rcond_of rcond * s0 <? x)%K) s = map (fun q => keepb rcond s q) (seq 0 (length s))).
    { apply (nth_ext _ _ false false); [rewrite !map_length, seq_length; reflexivity|].
      rewrite map_length. intros q Hq.
      rewrite (nth_indep _ false ((rcond_of rcond * s0 <? 0)%K)) by (rewrite map_length; auto).
      rewrite map_nth. rewrite (nth_indep (map (fun q => keepb rcond s q) (seq 0 (length s))) false (keepb rcond s 0)) by (rewrite map_length, seq_length; auto).
      rewrite map_nth, seq_nth by auto. cbn [plus]. reflexivity. }
    constructor; cbn [rg_b rg_rstdev rg_m rg_u rg_s rg_mask rg_pc rg_p].
    + split; [reflexivity|]. intros t Ht. cbn [get]. rewrite B2. unfold bget. cbn [shp nravel].
      rewrite bidx_self by (constructor; [exact Ht|constructor]). cbn [get nravel hd]. numR. reflexivity.
    + split; [exact B1|]. intros t Ht. apply B2.
    + repeat split. intros i t Hi Ht. apply (wmod_at data mdl errs i t He).
    + reflexivity.
    + reflexivity.
    + exact MK.
    + cbn [nr SolvePer.nc at2]. repeat split; [exact E1|lia|]. intros i q Hq.
      rewrite MK.
      rewrite (nth_indep (map (fun q => keepb rcond s q) (seq 0 (length s))) false (keepb rcond s 0)) by (rewrite map_length, seq_length; auto).
      rewrite map_nth, seq_nth by auto. cbn [plus]. unfold rsq. numR. destruct (keepb rcond s q); [unfold Rdiv; rewrite Rmult_1_l|]; reflexivity.
    + cbn [shp get nr remove_at]. split; [rewrite E1; reflexivity|]. intros i. cbn [hd tl insert_at get].
      rewrite ksum_rsum. unfold pspec.
      rewrite L. apply rsum_ext. intros q Hq. cbn [hd tl at2 insert_at].
      rewrite MK.
      rewrite (nth_indep (map (fun q => keepb rcond s q) (seq 0 (length s))) false (keepb rcond s 0)) by (rewrite map_length, seq_length; auto).
      rewrite map_nth, seq_nth by auto. cbn [plus]. numR.
      rewrite ksum_rsum. f_equal.
      * unfold rsq. destruct (keepb rcond s q); [unfold Rdiv; rewrite Rmult_1_l|]; reflexivity.
      * apply rsum_ext. intros t Ht. numR. rewrite B2. unfold bget. cbn [shp nravel].
        rewrite bidx_self by (constructor; [exact Ht|constructor]). reflexivity.
Qed.

Lemma rg_core_inv svd data mdl errs rcond c :
  svd_sound svd -> mdl_ok data mdl -> errs_ok data errs -> rg_core svd data mdl errs rcond = Ok c ->
  exists u s v, is_svd (wmat data mdl errs) u s v /\ core_ok data mdl errs rcond u s v c /\
    exists m, same2 m (wmat data mdl errs) /\ svd m = Ok (u, s, v).
Proof.
  intros Hsvd Hm He H. destruct (rstd_ok data errs He) as [B1 B2].
  assert (X : exists u s v, svd (wmod data mdl errs) = Ok (u, s, v) /\ (0 < length s)%nat).
  { unfold rg_core, rg_matrix in H.
    replace (forallb (fun mi => bto (shp mi) (shp data)) mdl) with true in H.
    2:{ symmetry. apply forallb_forall. intros mi Hi. apply Hm, Hi. }
    cbn [bind nr SolvePer.nc at2] in H. fold (rstd errs) in H.
    unfold nd_map2 at 1 in H. cbn [shp nravel] in H.
    rewrite (bshape_of_bto (shp (rstd errs)) [size (shp data)]) in H by exact B1. cbn [bind] in H.
    rewrite (bto_cons (shp (rstd errs)) (size (shp data)) (length mdl)) in H by exact B1.
    fold (npts data) in H. fold (wmod data mdl errs) in H.
    destruct (svd (wmod data mdl errs)) as [[[u s] v]|]; [|discriminate]. cbn [bind fst snd] in H.
    destruct (dot_mn v _); [|discriminate]. cbn [bind] in H.
    destruct s as [|s0 s']; [discriminate|]. exists u, (s0 :: s'), v. split; [reflexivity|cbn; lia]. }
  destruct X as (u & s & v & Hr & Hs). pose proof (Hsvd _ _ _ _ Hr) as Hok.
  destruct (rg_core_run svd data mdl errs rcond u s v Hm He Hr Hok Hs) as (c' & Hc & Hco).
  rewrite Hc in H. injection H as <-. exists u, s, v. split; [apply wmod_svd; auto|]. split; [exact Hco|].
  exists (wmod data mdl errs). split; [|exact Hr]. split; [reflexivity|]. split; [reflexivity|].
  intros i t _ _. apply wmod_at; auto.
Qed.
Lemma rg_core_total svd data mdl errs rcond :
  svd_sound svd -> svd_total svd -> mdl_ok data mdl -> errs_ok data errs -> mdl <> [] -> (0 < npts data)%nat ->
  exists c, rg_core svd data mdl errs rcond = Ok c.
Proof.
  intros Hsvd Ht Hm He Hn HN.
  assert (Hl : (0 < length mdl)%nat) by (destruct mdl; cbn; [congruence|lia]).
  destruct (Ht (wmod data mdl errs)) as [[[u s] v] Hr]; [exact Hl|exact HN|].
  pose proof (Hsvd _ _ _ _ Hr) as Hok.
  destruct (rg_core_run svd data mdl errs rcond u s v Hm He Hr Hok) as (c & Hc & _); [|eauto].
  destruct Hok as ((_ & _ & L & _) & _). rewrite L. cbn [nr SolvePer.nc wmod]. lia.
Qed.

(* cost in terms of the weighted matrix *)
Lemma cost_w data mdl errs q : errs_ok data errs ->
  cost data mdl errs q =
  rsum (npts data) (fun t => (rsum (length mdl) (fun i => q i * at2 (wmat data mdl errs) i t) - bpt data errs t) ^ 2).
Proof.
  intros He. unfold cost. apply rsum_ext. intros t Ht. f_equal. unfold mval, bpt, wmat. cbn [at2].
  rewrite (rsum_ext _ (fun i => q i * (mpt data mdl i t / ept errs t)) (fun i => q i * mpt data mdl i t * / ept errs t)) by (intros; unfold Rdiv; ring).
  rewrite rsum_scal_r. unfold Rdiv. ring.
Qed.
Lemma ept_nz data errs t : errs_ok data errs -> (t < npts data)%nat -> ept errs t <> 0.
Proof. intros H Ht. unfold errs_ok, ept in *. destruct errs; [apply H; auto|lra]. Qed.

(* the facts about p needed below, from the decomposition *)
Section Facts.
  Variables (data : nd R) (mdl : list (nd R)) (errs : option (nd R)) (rcond : option R) (u v : arr2 R) (s : list R).
  Hypothesis He : errs_ok data errs.
  Hypothesis Hok : is_svd (wmat data mdl errs) u s v.
  Let p := pspec data errs rcond u s v.
  Definition dropped_free (q : nat -> R) : Prop :=
    forall r, (r < length s)%nat -> ~ kept rcond s r -> nth r s 0 = 0 \/ udot (length mdl) u r q = 0.
  Let Hlen : length s = Nat.min (length mdl) (npts data).
  Proof. destruct Hok as ((_ & _ & L & _) & _). exact L. Qed.
  Lemma facts_free q : dropped_free q -> alg_free (length mdl) (length s) (fun i r => at2 u i r) (fun r => nth r s 0) (keepb rcond s) q.
  Proof using.
    intros H r Hr E. destruct (H r Hr) as [H0|H0].
    - intros X. apply keepb_spec in X. congruence.
    - rewrite H0. ring.
    - unfold udot in H0. rewrite H0. ring.
  Qed.
  Let HU q q' : (q < length s)%nat -> (q' < length s)%nat ->
     rsum (length mdl) (fun i => at2 u i q * at2 u i q') = if (q =? q')%nat then 1 else 0.
  Proof. rewrite Hlen. intros. destruct Hok as (_ & _ & _ & H4 & _). apply H4; assumption. Qed.
  Let HV q q' : (q < length s)%nat -> (q' < length s)%nat ->
     rsum (npts data) (fun t => at2 v q t * at2 v q' t) = if (q =? q')%nat then 1 else 0.
  Proof. rewrite Hlen. intros. destruct Hok as (_ & _ & _ & _ & H5 & _). apply H5; assumption. Qed.
  Let HM i t : (i < length mdl)%nat -> (t < npts data)%nat ->
     at2 (wmat data mdl errs) i t = rsum (length s) (fun q => at2 u i q * nth q s 0 * at2 v q t).
  Proof. rewrite Hlen. intros. destruct Hok as (_ & _ & _ & _ & _ & H6). apply H6; assumption. Qed.
  Let Hk q : (q < length s)%nat -> keepb rcond s q = true -> nth q s 0 <> 0.
  Proof. intros Hq E. apply keepb_spec in E. pose proof (kept_pos _ _ _ _ _ _ Hok Hq E). lra. Qed.

  Lemma facts_min q : dropped_free q -> cost data mdl errs p <= cost data mdl errs q.
  Proof using He Hok.
    intros Hq. rewrite !cost_w by auto.
    exact (alg_min (length mdl) (npts data) (length s) (fun i r => at2 u i r) (fun r => nth r s 0) (fun r t => at2 v r t)
             (at2 (wmat data mdl errs)) (bpt data errs) (keepb rcond s) HU HV HM Hk q (facts_free q Hq)).
  Qed.
  Lemma facts_tie q : dropped_free q -> cost data mdl errs q <= cost data mdl errs p ->
    norm2 (length mdl) q = norm2 (length mdl) p + norm2 (length mdl) (fun i => q i - p i).
  Proof using He Hok.
    intros Hq. rewrite !cost_w by auto.
    exact (alg_tie (length mdl) (npts data) (length s) (fun i r => at2 u i r) (fun r => nth r s 0) (fun r t => at2 v r t)
             (at2 (wmat data mdl errs)) (bpt data errs) (keepb rcond s) HU HV HM Hk q (facts_free q Hq)).
  Qed.
  Lemma facts_p : dropped_free p.
  Proof using He Hok.
    intros r Hr E. right.
    pose proof (alg_up (length mdl) (npts data) (length s) (fun i r => at2 u i r) (fun r => nth r s 0) (fun r t => at2 v r t)
             (bpt data errs) (keepb rcond s) HU r Hr) as A. unfold udot.
    change (rsum (length mdl) (fun i => at2 u i r * p i) = 0). etransitivity; [exact A|].
    cbn beta zeta; destruct (keepb rcond s r) eqn:X; [|ring]. apply keepb_spec in X. contradiction.
  Qed.
  Definition lin i t : R := rsum (length s) (fun q => at2 u i q * rsq rcond s q * at2 v q t).
  Lemma facts_lin i : p i = rsum (npts data) (fun t => lin i t * bpt data errs t).
  Proof using.
    exact (alg_lin (npts data) (length s) (fun i r => at2 u i r) (fun r => nth r s 0) (fun r t => at2 v r t)
             (bpt data errs) (keepb rcond s) i).
  Qed.
  Lemma facts_cov i j : rsum (length s) (fun q => at2 u i q * rsq rcond s q * (at2 u j q * rsq rcond s q)) =
    rsum (npts data) (fun t => lin i t * lin j t).
  Proof using Hok.
    exact (alg_cov (npts data) (length s) (fun i r => at2 u i r) (fun r => nth r s 0) (fun r t => at2 v r t)
             (keepb rcond s) HV i j).
  Qed.
End Facts.

Lemma norm2_nonneg n q : 0 <= norm2 n q.
Proof. apply rsum_nonneg. intros. apply pow2_ge_0. Qed.
Lemma norm2_0 n q : norm2 n q <= 0 -> forall i, (i < n)%nat -> q i = 0.
Proof.
  intros H i Hi. pose proof (rsum_nonneg_0 n (fun i => q i ^ 2) (fun i _ => pow2_ge_0 _)) as Z.
  pose proof (norm2_nonneg n q). specialize (Z ltac:(unfold norm2 in *; lra) i Hi). cbn beta in Z. nra.
Qed.

(* the smallest-norm minimiser over a set S of coefficient vectors *)
Definition best_of (data : nd R) (mdl : list (nd R)) (errs : option (nd R)) (S : (nat -> R) -> Prop) (p : nat -> R) : Prop :=
  S p /\
  (forall q, S q -> cost data mdl errs p <= cost data mdl errs q) /\
  (forall q, S q -> cost data mdl errs q <= cost data mdl errs p ->
     norm2 (length mdl) p <= norm2 (length mdl) q /\
     (norm2 (length mdl) q <= norm2 (length mdl) p -> forall i, (i < length mdl)%nat -> q i = p i)).

Lemma facts_best data mdl errs rcond u s v p : errs_ok data errs -> is_svd (wmat data mdl errs) u s v ->
  (forall i, p i = pspec data errs rcond u s v i) ->
  best_of data mdl errs (dropped_free mdl rcond u s) p.
Proof.
  intros He Hok Hp.
  assert (Ec : cost data mdl errs p = cost data mdl errs (pspec data errs rcond u s v)).
  { unfold cost. apply rsum_ext. intros t Ht. unfold mval. do 3 f_equal. apply rsum_ext. intros. rewrite Hp. reflexivity. }
  assert (En : norm2 (length mdl) p = norm2 (length mdl) (pspec data errs rcond u s v)).
  { unfold norm2. apply rsum_ext. intros. rewrite Hp. reflexivity. }
  split; [|split].
  - intros r Hr E. destruct (facts_p data mdl errs rcond u v s He Hok r Hr E) as [X|X]; auto. right.
    rewrite <- X. unfold udot. apply rsum_ext. intros. rewrite Hp. reflexivity.
  - intros q Hq. rewrite Ec. apply facts_min; auto.
  - intros q Hq Hle. rewrite Ec in Hle. pose proof (facts_tie data mdl errs rcond u v s He Hok q Hq Hle) as T.
    pose proof (norm2_nonneg (length mdl) (fun i => q i - pspec data errs rcond u s v i)).
    split; [lra|]. intros Hn i Hi. rewrite Hp.
    pose proof (norm2_0 (length mdl) (fun i => q i - pspec data errs rcond u s v i) ltac:(lra) i Hi). cbn beta in *. lra.
Qed.

(* C62: the coefficients minimise the weighted sum of squares over all coefficient
   vectors, have the smallest norm among the minimisers and are the only ones that do *)
Theorem C62_regress svd data mdl errs rcond p :
  svd_sound svd -> mdl_ok data mdl -> errs_ok data errs -> no_cut svd data mdl errs rcond ->
  regress svd data mdl errs rcond = Ok p ->
  shp p = [length mdl] /\ best_of data mdl errs (fun _ => True) (fun i => get p [i]).
Proof.
  intros Hsvd Hm He Hc H. unfold regress in H. destruct (rg_core svd data mdl errs rcond) as [c|] eqn:E; [|discriminate].
  cbn in H. injection H as <-. destruct (rg_core_inv _ _ _ _ _ _ Hsvd Hm He E) as (u & s & v & Hok & Hco & mm & Hmm & Hmv).
  destruct (co_p _ _ _ _ _ _ _ _ Hco) as [P1 P2]. split; [exact P1|].
  destruct (facts_best data mdl errs rcond u s v (fun i => get (rg_p c) [i]) He Hok P2) as (_ & B2 & B3).
  assert (F : forall q, dropped_free mdl rcond u s q).
  { intros q r Hr Hn. destruct (Hc mm u s v Hmm Hmv r Hr); [left; auto|contradiction]. }
  split; [exact I|split].
  - intros q _. apply B2, F.
  - intros q _. apply B3, F.
Qed.
(* and regress returns for every conformable input *)
Theorem C62_total svd data mdl errs rcond :
  svd_sound svd -> svd_total svd -> mdl_ok data mdl -> errs_ok data errs -> mdl <> [] -> (0 < npts data)%nat ->
  exists p, regress svd data mdl errs rcond = Ok p.
Proof.
  intros. destruct (rg_core_total svd data mdl errs rcond) as [c E]; auto.
  exists (rg_p c). unfold regress. rewrite E. reflexivity.
Qed.

(* C63, truncation: only singular values above rcond*s[0] contribute, rcond clipped to
   [1e-13, 0.5], and the result is the best among the coefficient vectors without a
   component along a dropped direction *)
Theorem C63_truncation svd data mdl errs rcond p :
  svd_sound svd -> mdl_ok data mdl -> errs_ok data errs -> regress svd data mdl errs rcond = Ok p ->
  exists u s v, is_svd (wmat data mdl errs) u s v /\
  (forall i, (i < length mdl)%nat ->
     get p [i] = rsum (length s) (fun q => if Rlt_dec (rcond_of rcond * nth 0 s 0) (nth q s 0)
                                           then at2 u i q * rsum (npts data) (fun t => at2 v q t * (dpt data t / ept errs t)) / nth q s 0
                                           else 0)) /\
  best_of data mdl errs
    (fun q => forall r, (r < length s)%nat -> ~ rcond_of rcond * nth 0 s 0 < nth r s 0 ->
              nth r s 0 = 0 \/ udot (length mdl) u r q = 0)
    (fun i => get p [i]).
Proof.
  intros Hsvd Hm He H. unfold regress in H. destruct (rg_core svd data mdl errs rcond) as [c|] eqn:E; [|discriminate].
  cbn in H. injection H as <-. destruct (rg_core_inv _ _ _ _ _ _ Hsvd Hm He E) as (u & s & v & Hok & Hco & mm & Hmm & Hmv).
  destruct (co_p _ _ _ _ _ _ _ _ Hco) as [P1 P2]. exists u, s, v. split; [exact Hok|]. split.
  - intros i Hi. rewrite P2. unfold pspec. apply rsum_ext. intros q Hq. unfold rsq, keepb, Rltb.
    destruct (Rlt_dec _ _); [unfold bpt, Rdiv; ring|ring].
  - exact (facts_best data mdl errs rcond u s v (fun i => get (rg_p c) [i]) He Hok P2).
Qed.

(* number of singular values used *)
Definition nkept (rcond : option R) (s : list R) : nat :=
  length (filter (fun x => if Rlt_dec (rcond_of rcond * nth 0 s 0) x then true else false) s).
Lemma filter_map_len {A B} (f : B -> bool) (g : A -> B) l : length (filter f (map g l)) = length (filter (fun x => f (g x)) l).
Proof. induction l as [|x l IH]; cbn; auto. destruct (f (g x)); cbn; auto. Qed.
Lemma nkept_mask rcond s : length (filter (fun x : bool => x) (map (fun q => keepb rcond s q) (seq 0 (length s)))) = nkept rcond s.
Proof.
  rewrite filter_map_len. unfold nkept.
  assert (G : forall (f : R -> bool) l k, length (filter (fun q => f (nth (q - k) l 0)) (seq k (length l))) = length (filter f l)).
  { intros f l. induction l as [|x l IH]; intros k; [reflexivity|]. cbn [length seq filter].
    rewrite Nat.sub_diag. change (nth 0 (x :: l) 0) with x.
    assert (X : filter (fun q => f (nth (q - k) (x :: l) 0)) (seq (S k) (length l)) = filter (fun q => f (nth (q - S k) l 0)) (seq (S k) (length l))).
    { apply filter_ext_in. intros q Hq. apply in_seq in Hq. replace (q - k)%nat with (S (q - S k)) by lia. reflexivity. }
    rewrite X. destruct (f x); cbn [length]; rewrite IH; reflexivity. }
  rewrite <- (G _ s 0%nat). f_equal. apply filter_ext. intros q. rewrite Nat.sub_0_r. reflexivity.
Qed.

Lemma bto1_self_fit {A} (r : nd A) N : bto (shp r) [N] = true -> forall n, n = N -> bto (shp r) [n] = true.
Proof. intros H n ->. exact H. Qed.
Lemma removelast_1 {A} (x : A) : removelast [x] = []. Proof. reflexivity. Qed.

(* regress(..., model=1) from the core *)
Lemma regress_model_run svd data mdl errs rcond c u s v :
  rg_core svd data mdl errs rcond = Ok c -> errs_ok data errs -> is_svd (wmat data mdl errs) u s v ->
  core_ok data mdl errs rcond u s v c ->
  exists f, regress_model svd data mdl errs rcond = Ok f /\
    mf_p f = rg_p c /\ mf_u f = Some u /\
    mf_s f = Some (map (fun q => if keepb rcond s q then nth q s 0 else 0) (seq 0 (length s))) /\
    mf_ndof f = Some (Z.of_nat (npts data) - Z.of_nat (nkept rcond s))%Z /\
    mf_chi2 f = Some (cost data mdl errs (fun i => get (rg_p c) [i]) / Rmax (IZR (Z.of_nat (npts data) - Z.of_nat (nkept rcond s))) 1) /\
    (exists fit, mf_call f tt = Ok fit /\ shp fit = [npts data] /\
       forall t, (t < npts data)%nat -> get fit [t] = mval data mdl (fun i => get (rg_p c) [i]) t) /\
    (exists cov, mf_pcov f = Some cov /\ nr cov = length mdl /\ SolvePer.nc cov = length mdl /\
       forall i j, at2 cov i j = rsum (npts data) (fun t => lin rcond u v s i t * lin rcond u v s j t)).
Proof.
  intros E He Hok Hco. destruct Hco as [[B1 B2] [R1 R2] (M1 & M2 & M3) U1 S1 MK (C1 & C2 & C3) [P1 P2]].
  unfold regress_model. rewrite E. cbn [bind].
  assert (D : dot_nm (rg_p c) (rg_m c) = Ok (Nd [npts data] (fun idx => ksum (length mdl) (fun q => (get (rg_p c) (removelast idx ++ [q]) * at2 (rg_m c) q (last idx 0%nat))%K)))).
  { unfold dot_nm, ndim. rewrite P1. cbn [length Nat.leb andb last removelast app]. rewrite M1, M2, Nat.eqb_refl. reflexivity. }
  rewrite D. cbn [bind]. unfold nd_map2. cbn [shp]. rewrite B1, bshape_refl. cbn [bind shp].
  rewrite R1. eexists. split; [reflexivity|].
  unfold mf_init. cbn [mf_p mf_u mf_s mf_ndof mf_chi2 mf_pcov].
  assert (FIT : forall t, (t < npts data)%nat ->
     ksum (length mdl) (fun q => (get (rg_p c) (removelast [t] ++ [q]) * at2 (rg_m c) q (last [t] 0%nat))%K)
     = mval data mdl (fun i => get (rg_p c) [i]) t / ept errs t).
  { intros t Ht. rewrite ksum_rsum. unfold mval. unfold Rdiv. rewrite <- rsum_scal_r. apply rsum_ext. intros i Hi.
    cbn [removelast app last]. rewrite M3 by auto. numR. unfold Rdiv. ring. }
  split; [reflexivity|]. split; [rewrite U1; reflexivity|]. split.
  { rewrite MK, S1. f_equal.
    assert (G : forall (f : nat -> bool) l k, map (fun ms => if (fst ms : bool) then snd ms else 0) (combine (map f (seq k (length l))) l)
                = map (fun q => if f q then nth (q - k) l 0 else 0) (seq k (length l))).
    { intros f l. induction l as [|x l IH]; intros k; [reflexivity|]. cbn [length seq map combine fst snd].
      rewrite Nat.sub_diag, IH. f_equal. apply map_ext_in. intros q Hq. apply in_seq in Hq.
      replace (q - k)%nat with (S (q - S k)) by lia. reflexivity. }
    numR. rewrite (G (fun q => keepb rcond s q) s 0%nat). apply map_ext. intros q. rewrite Nat.sub_0_r. reflexivity. }
  rewrite size1, MK, nkept_mask. split; [reflexivity|]. split.
  { f_equal. rewrite nmax_R. numR. f_equal. unfold asum. rewrite ksum_rsum. cbn [shp nd_map]. rewrite size1.
    unfold cost. apply rsum_ext. intros t Ht. cbn [get unravel nd_map].
    assert (IB : inb [t] [npts data]) by (constructor; [exact Ht|constructor]).
    change (size []) with 1%nat. rewrite Nat.div_1_r.
    unfold bget. cbn [shp]. rewrite B1, !bidx_self by exact IB. cbn [get]. rewrite B2, FIT by auto. numR. unfold bpt.
    unfold Rdiv. ring. }
  split.
  { eexists. split; [reflexivity|]. split; [reflexivity|]. intros t Ht. cbn [get shp]. rewrite FIT, R2 by auto. numR.
    field. apply (ept_nz data errs t He Ht). }
  { eexists. split; [reflexivity|]. cbn [nr SolvePer.nc at2]. rewrite C1, C2. repeat split.
    intros i j. rewrite ksum_rsum.
    rewrite <- (facts_cov data mdl errs rcond u v s Hok i j). apply rsum_ext. intros q Hq. rewrite !C3 by auto. reflexivity. }
Qed.

(* C63, statistics of model=1 *)
Theorem C63_statistics svd data mdl errs rcond f :
  svd_sound svd -> mdl_ok data mdl -> errs_ok data errs -> regress_model svd data mdl errs rcond = Ok f ->
  regress svd data mdl errs rcond = Ok (mf_p f) /\
  exists u s v, is_svd (wmat data mdl errs) u s v /\ mf_u f = Some u /\
    mf_s f = Some (map (fun x => if Rlt_dec (rcond_of rcond * nth 0 s 0) x then x else 0) s) /\
    mf_ndof f = Some (Z.of_nat (npts data) - Z.of_nat (nkept rcond s))%Z /\
    mf_chi2 f = Some (cost data mdl errs (fun i => get (mf_p f) [i]) / Rmax (IZR (Z.of_nat (npts data) - Z.of_nat (nkept rcond s))) 1) /\
    exists fit, mf_call f tt = Ok fit /\ shp fit = [npts data] /\
      forall t, (t < npts data)%nat -> get fit [t] = mval data mdl (fun i => get (mf_p f) [i]) t.
Proof.
  intros Hsvd Hm He H. destruct (rg_core svd data mdl errs rcond) as [c|] eqn:E.
  2:{ unfold regress_model in H. rewrite E in H. discriminate. }
  destruct (rg_core_inv _ _ _ _ _ _ Hsvd Hm He E) as (u & s & v & Hok & Hco & mm & Hmm & Hmv).
  destruct (regress_model_run svd data mdl errs rcond c u s v E He Hok Hco) as (f' & Hf & F1 & F2 & F3 & F4 & F5 & F6 & _).
  rewrite H in Hf. injection Hf as <-. split; [unfold regress; rewrite E, F1; reflexivity|].
  exists u, s, v. rewrite F1. repeat (split; [assumption|]). split; [|repeat split; assumption].
  rewrite F3. f_equal. apply (nth_ext _ _ 0 0); [rewrite !map_length, seq_length; reflexivity|].
  rewrite map_length, seq_length. intros q Hq.
  rewrite (nth_indep _ 0 ((fun q => if keepb rcond s q then nth q s 0 else 0) 0%nat)) by (rewrite map_length, seq_length; auto).
  rewrite (map_nth (fun q => if keepb rcond s q then nth q s 0 else 0)), seq_nth by auto. cbn [plus].
  rewrite (nth_indep (map _ s) 0 ((fun x => if Rlt_dec (rcond_of rcond * nth 0 s 0) x then x else 0) 0)) by (rewrite map_length; auto).
  rewrite (map_nth (fun x => if Rlt_dec (rcond_of rcond * nth 0 s 0) x then x else 0)).
  unfold keepb, Rltb. destruct (Rlt_dec _ _); reflexivity.
Qed.

(* C63, covariances: the coefficients are a fixed linear function L of the data over
   errs, so that independent data errors of size errs give p the covariances L L^T;
   this is pcov *)
Theorem C63_covariance svd data mdl errs rcond f :
  svd_sound svd -> mdl_ok data mdl -> errs_ok data errs -> regress_model svd data mdl errs rcond = Ok f ->
  exists L cov,
    (forall data' , shp data' = shp data -> exists p, regress svd data' mdl errs rcond = Ok p /\
       forall i, (i < length mdl)%nat -> get p [i] = rsum (npts data) (fun t => L i t * (dpt data' t / ept errs t))) /\
    mf_pcov f = Some cov /\ nr cov = length mdl /\ SolvePer.nc cov = length mdl /\
    forall i j, (i < length mdl)%nat -> (j < length mdl)%nat -> at2 cov i j = rsum (npts data) (fun t => L i t * L j t).
Proof.
  intros Hsvd Hm He H. destruct (rg_core svd data mdl errs rcond) as [c|] eqn:E.
  2:{ unfold regress_model in H. rewrite E in H. discriminate. }
  assert (X : exists u s v, svd (wmod data mdl errs) = Ok (u, s, v) /\ (0 < length s)%nat).
  { destruct (rstd_ok data errs He) as [B1 B2]. unfold rg_core, rg_matrix in E.
    replace (forallb (fun mi => bto (shp mi) (shp data)) mdl) with true in E.
    2:{ symmetry. apply forallb_forall. intros mi Hi. apply Hm, Hi. }
    cbn [bind nr SolvePer.nc at2] in E. fold (rstd errs) in E.
    unfold nd_map2 at 1 in E. cbn [shp nravel] in E.
    rewrite (bshape_of_bto (shp (rstd errs)) [size (shp data)]) in E by exact B1. cbn [bind] in E.
    rewrite (bto_cons (shp (rstd errs)) (size (shp data)) (length mdl)) in E by exact B1.
    fold (npts data) in E. fold (wmod data mdl errs) in E.
    destruct (svd (wmod data mdl errs)) as [[[u s] v]|]; [|discriminate]. cbn [bind fst snd] in E.
    destruct (dot_mn v _); [|discriminate]. cbn [bind] in E.
    destruct s as [|s0 s']; [discriminate|]. exists u, (s0 :: s'), v. split; [reflexivity|cbn; lia]. }
  destruct X as (u & s & v & Hr & Hs). pose proof (Hsvd _ _ _ _ Hr) as Hok.
  pose proof (wmod_svd data mdl errs u s v He Hok) as Hokw.
  exists (lin rcond u v s).
  destruct (rg_core_run svd data mdl errs rcond u s v Hm He Hr Hok Hs) as (c' & Hc & Hco).
  rewrite Hc in E. injection E as <-.
  destruct (regress_model_run svd data mdl errs rcond c' u s v Hc He Hokw Hco) as (f' & Hf & _ & _ & _ & _ & _ & _ & cov & F1 & F2 & F3 & F4).
  rewrite H in Hf. injection Hf as <-. exists cov. split; [|auto].
  intros data' Hsh.
  assert (EN : npts data' = npts data) by (unfold npts; rewrite Hsh; reflexivity).
  assert (EW : wmod data' mdl errs = wmod data mdl errs) by (unfold wmod; rewrite EN, Hsh; reflexivity).
  assert (Hm' : mdl_ok data' mdl) by (unfold mdl_ok; rewrite Hsh; exact Hm).
  assert (He' : errs_ok data' errs) by (unfold errs_ok; rewrite EN; exact He).
  destruct (rg_core_run svd data' mdl errs rcond u s v Hm' He') as (c2 & Hc2 & Hco2); rewrite ?EW; auto.
  exists (rg_p c2). split; [unfold regress; rewrite Hc2; reflexivity|].
  intros i Hi. rewrite (proj2 (co_p _ _ _ _ _ _ _ _ Hco2) i), <- EN.
  apply (facts_lin data' errs rcond u v s i).
Qed.
Theorem C63_total svd data mdl errs rcond :
  svd_sound svd -> svd_total svd -> mdl_ok data mdl -> errs_ok data errs -> mdl <> [] -> (0 < npts data)%nat ->
  exists f, regress_model svd data mdl errs rcond = Ok f.
Proof.
  intros Hsvd Ht Hm He Hn HN. destruct (rg_core_total svd data mdl errs rcond Hsvd Ht Hm He Hn HN) as [c E].
  destruct (rg_core_inv _ _ _ _ _ _ Hsvd Hm He E) as (u & s & v & Hok & Hco & mm & Hmm & Hmv).
  destruct (regress_model_run svd data mdl errs rcond c u s v E He Hok Hco) as (f & Hf & _). eauto.
Qed.

(* C64 is false for data of rank 2 and more: errs is not raveled as data and the
   models are.  If the last dimension of data is neither 1 nor the number of points,
   errs of the shape of data raises ValueError; a column of data gives coefficients
   of the wrong shape. *)
Lemma bshape_last s l N : l <> 1%nat -> l <> N -> N <> 1%nat -> bshape [N] (s ++ [l]) = None.
Proof.
  intros H1 H2 H3. unfold bshape. rewrite rev_app_distr. cbn [rev app brev bdim].
  unfold bdim. destruct (Nat.eqb_spec N l); [lia|]. destruct (Nat.eqb_spec N 1); [lia|]. destruct (Nat.eqb_spec l 1); [lia|]. reflexivity.
Qed.
Theorem C64_refuted svd (data e : nd R) mdl rcond s l :
  shp data = s ++ [l] -> l <> 1%nat -> l <> npts data -> npts data <> 1%nat ->
  shp e = shp data -> regress svd data mdl (Some e) rcond = Err ValueError.
Proof.
  intros Hs H1 H2 H3 He. unfold regress, rg_core, rg_matrix.
  destruct (forallb _ mdl); [|reflexivity]. cbn [bind]. unfold nd_map2. cbn [shp nravel nd_map].
  rewrite He. rewrite Hs at 2. fold (npts data). rewrite bshape_last by auto. reflexivity.
Qed.
(* a column of two points, two components, errs of the same shape: the call succeeds
   but the "coefficients" are a 2 by 2 array *)
Definition id_svd (m : arr2 R) : res (arr2 R * list R * arr2 R) :=
  if Nat.eq_dec (nr m) 2 then if Nat.eq_dec (SolvePer.nc m) 2 then
  if Req_EM_T (at2 m 0 0) 1 then if Req_EM_T (at2 m 0 1) 0 then
  if Req_EM_T (at2 m 1 0) 0 then if Req_EM_T (at2 m 1 1) 1 then
    Ok (Arr2 2 2 (fun i q => if (i =? q)%nat then 1 else 0), [1; 1], Arr2 2 2 (fun q t => if (q =? t)%nat then 1 else 0))
  else Err LinAlgError else Err LinAlgError else Err LinAlgError else Err LinAlgError else Err LinAlgError else Err LinAlgError.
Lemma id_svd_sound : svd_sound id_svd.
Proof.
  intros m u s v H. unfold id_svd in H.
  repeat match type of H with context [if ?c then _ else _] => destruct c; [|discriminate] end.
  injection H as <- <- <-. unfold is_svd. rewrite e, e0. cbn [Nat.min nr SolvePer.nc length].
  split; [auto|].
  split; [intros [|[|q]] Hq; cbn; try lra; lia|].
  split; [intros [|[|q]] [|[|q']] Hq; cbn; try lra; lia|].
  split; [intros [|[|q]] [|[|q']] Hq Hq'; cbn; try lra; lia|].
  split; [intros [|[|q]] [|[|q']] Hq Hq'; cbn; try lra; lia|].
  intros [|[|i]] [|[|t]] Hi Ht; cbn; try lia; rewrite ?e1, ?e2, ?e3, ?e4; cbn; lra.
Qed.
Definition col2 (a b : R) : nd R := Nd [2%nat; 1%nat] (fun idx => if (hd 0 idx =? 0)%nat then a else b).
Theorem C64_column_refuted : exists p,
  regress id_svd (col2 1 2) [col2 1 0; col2 0 1] (Some (col2 1 1)) None = Ok p /\ shp p = [2%nat; 2%nat].
Proof.
  unfold regress, rg_core, rg_matrix. cbn [forallb shp col2 bto rev app bto_rev andb orb Nat.eqb bind].
  unfold nd_map2. cbn [shp nravel nd_map col2 size fold_right Nat.mul].
  change (bshape [2%nat] [2%nat; 1%nat]) with (Some [2%nat; 2%nat]). cbn [bind].
  cbn [nr SolvePer.nc length].
  change (bto [2%nat; 1%nat] [2%nat; (2 * (1 * 1))%nat]) with true. cbv iota.
  match goal with |- context [id_svd ?m] => set (mm := m) end.
  assert (X : id_svd mm = Ok (Arr2 2 2 (fun i q => if (i =? q)%nat then 1 else 0), [1; 1], Arr2 2 2 (fun q t => if (q =? t)%nat then 1 else 0))).
  { assert (A0 : at2 mm 0 0 = 1) by (unfold mm; cbn; numR; field).
    assert (A1 : at2 mm 0 1 = 0) by (unfold mm; cbn; numR; field).
    assert (A2 : at2 mm 1 0 = 0) by (unfold mm; cbn; numR; field).
    assert (A3 : at2 mm 1 1 = 1) by (unfold mm; cbn; numR; field).
    unfold id_svd. rewrite A0, A1, A2, A3.
    destruct (Nat.eq_dec (nr mm) 2) as [|n]; [|exfalso; apply n; reflexivity].
    destruct (Nat.eq_dec (SolvePer.nc mm) 2) as [|n]; [|exfalso; apply n; reflexivity].
    destruct (Req_EM_T 1 1); [|lra]. destruct (Req_EM_T 0 0); [|lra]. reflexivity. }
  rewrite X. cbn [bind fst snd dot_mn ndim shp length Nat.sub Nat.leb andb nth SolvePer.nc Nat.eqb hd_error of_opt remove_at nr rg_p].
  eexists. split; reflexivity.
Qed.
(* what remains true: 1-d data with one standard deviation per point, or data of any
   rank with a single number *)
Theorem C64_partial svd data mdl e rcond p :
  svd_sound svd -> mdl_ok data mdl -> no_cut svd data mdl (Some e) rcond ->
  (ndim data = 1%nat /\ shp e = shp data /\ (forall t, (t < npts data)%nat -> get e [t] <> 0)) \/
  (shp e = [] /\ get e [] <> 0) ->
  regress svd data mdl (Some e) rcond = Ok p ->
  shp p = [length mdl] /\ best_of data mdl (Some e) (fun _ => True) (fun i => get p [i]) /\
  forall t, (t < npts data)%nat -> ept (Some e) t = if (ndim e =? 0)%nat then get e [] else get e [t].
Proof.
  intros Hsvd Hm Hc He H.
  assert (S1 : ndim data = 1%nat -> shp data = [npts data]).
  { unfold ndim, npts. destruct (shp data) as [|d [|]]; cbn; intros; try lia. f_equal. lia. }
  assert (EV : forall t, (t < npts data)%nat -> ept (Some e) t = if (ndim e =? 0)%nat then get e [] else get e [t]).
  { intros t Ht. unfold ept, bget, ndim. destruct He as [(D & E & _)|[E _]]; rewrite E; [|reflexivity].
    rewrite (S1 D). cbn [length Nat.eqb]. rewrite bidx_self; [reflexivity|]. constructor; [exact Ht|constructor]. }
  assert (EO : errs_ok data (Some e)).
  { split.
    - destruct He as [(D & E & _)|[E _]]; rewrite E; [rewrite (S1 D) at 1; apply bto_refl'|reflexivity].
    - intros t Ht. specialize (EV t Ht). unfold ept in EV. rewrite EV. unfold ndim.
      destruct He as [(D & E & Z)|[E Z]]; rewrite E; [rewrite (S1 D); cbn; auto|exact Z]. }
  destruct (C62_regress svd data mdl (Some e) rcond p Hsvd Hm EO Hc H) as [X1 X2]. auto.
Qed.

(* A case: two proportional components (the weighted matrix has rank 1), three points
   with errors 1, 2, 1.  The hypotheses of C62 and C63 hold, p is the minimiser of
   smallest norm. *)
Definition r1_m (i t : nat) : R := (if (i =? 0)%nat then 3 else 4) * (if (t =? 0)%nat then 1 else 2).
Definition r1_u : arr2 R := Arr2 2 2 (fun i q => match i, q with O, O => 3/5 | S _, S _ => -(3/5) | _, _ => 4/5 end).
Definition r1_v : arr2 R := Arr2 2 3 (fun q t => match q, t with
  | O, O => 1/3 | O, _ => 2/3 | S _, O => 2/3 | S _, S O => -(2/3) | S _, _ => 1/3 end).
Definition r1_svd (m : arr2 R) : res (arr2 R * list R * arr2 R) :=
  if Nat.eq_dec (nr m) 2 then if Nat.eq_dec (SolvePer.nc m) 3 then
  if Req_EM_T (at2 m 0 0) 3 then if Req_EM_T (at2 m 0 1) 6 then if Req_EM_T (at2 m 0 2) 6 then
  if Req_EM_T (at2 m 1 0) 4 then if Req_EM_T (at2 m 1 1) 8 then if Req_EM_T (at2 m 1 2) 8 then
    Ok (r1_u, [15; 0], r1_v)
  else Err LinAlgError else Err LinAlgError else Err LinAlgError else Err LinAlgError
  else Err LinAlgError else Err LinAlgError else Err LinAlgError else Err LinAlgError.
Lemma r1_svd_sound : svd_sound r1_svd.
Proof.
  intros m u s v H. unfold r1_svd in H.
  repeat match type of H with context [if ?c then _ else _] => destruct c; [|discriminate] end.
  injection H as <- <- <-. unfold is_svd. rewrite e, e0. cbn [Nat.min nr SolvePer.nc length r1_u r1_v].
  split; [auto|].
  split; [intros [|[|q]] Hq; cbn; try lra; lia|].
  split; [intros [|[|q]] [|[|q']] Hq; cbn; try lra; lia|].
  split; [intros [|[|q]] [|[|q']] Hq Hq'; cbn; try lra; lia|].
  split; [intros [|[|q]] [|[|q']] Hq Hq'; cbn; try lra; lia|].
  intros [|[|i]] [|[|[|t]]] Hi Ht; cbn; try lia; rewrite ?e1, ?e2, ?e3, ?e4, ?e5, ?e6; cbn; lra.
Qed.
Definition r1_data : nd R := vec 0 [1; 0; 1].
Definition r1_mdl : list (nd R) := [vec 0 [3; 12; 6]; vec 0 [4; 16; 8]].
Definition r1_errs : nd R := vec 0 [1; 2; 1].
Example C62_case :
  svd_sound r1_svd /\ mdl_ok r1_data r1_mdl /\ errs_ok r1_data (Some r1_errs) /\
  no_cut r1_svd r1_data r1_mdl (Some r1_errs) None /\
  (exists p, regress r1_svd r1_data r1_mdl (Some r1_errs) None = Ok p /\ get p [0%nat] = 1/25 /\ get p [1%nat] = 4/75) /\
  exists f, regress_model r1_svd r1_data r1_mdl (Some r1_errs) None = Ok f /\ mf_ndof f = Some 2%Z.
Proof.
  assert (HM : mdl_ok r1_data r1_mdl) by (intros mi [<-|[<-|[]]]; reflexivity).
  assert (HE : errs_ok r1_data (Some r1_errs)).
  { split; [reflexivity|]. intros [|[|[|t]]] Ht; cbn; try lra. unfold npts in Ht. cbn in Ht. lia. }
  assert (RC : rcond_of None * 15 < 15) by (pose proof (rcond_range None); lra).
  assert (RZ : ~ rcond_of None * 15 < 0).
  { pose proof (rcond_range None). assert (0 < / 10 ^ 13) by (apply Rinv_0_lt_compat; cbn; lra). lra. }
  assert (SV : r1_svd (wmod r1_data r1_mdl (Some r1_errs)) = Ok (r1_u, [15; 0], r1_v)).
  { assert (W : forall i t, at2 (wmod r1_data r1_mdl (Some r1_errs)) i t = mpt r1_data r1_mdl i t / ept (Some r1_errs) t) by (intros; apply wmod_at; auto).
    unfold r1_svd.
    destruct (Nat.eq_dec (nr (wmod r1_data r1_mdl (Some r1_errs))) 2) as [|n]; [|exfalso; apply n; reflexivity].
    destruct (Nat.eq_dec (SolvePer.nc (wmod r1_data r1_mdl (Some r1_errs))) 3) as [|n]; [|exfalso; apply n; reflexivity].
    rewrite !W.
    assert (A0 : mpt r1_data r1_mdl 0 0 / ept (Some r1_errs) 0 = 3) by (cbn; field).
    assert (A1 : mpt r1_data r1_mdl 0 1 / ept (Some r1_errs) 1 = 6) by (cbn; field).
    assert (A2 : mpt r1_data r1_mdl 0 2 / ept (Some r1_errs) 2 = 6) by (cbn; field).
    assert (A3 : mpt r1_data r1_mdl 1 0 / ept (Some r1_errs) 0 = 4) by (cbn; field).
    assert (A4 : mpt r1_data r1_mdl 1 1 / ept (Some r1_errs) 1 = 8) by (cbn; field).
    assert (A5 : mpt r1_data r1_mdl 1 2 / ept (Some r1_errs) 2 = 8) by (cbn; field).
    rewrite A0, A1, A2, A3, A4, A5.
    repeat match goal with |- context [Req_EM_T ?a ?a] => destruct (Req_EM_T a a); [|lra] end. reflexivity. }
  destruct (rg_core_run r1_svd r1_data r1_mdl (Some r1_errs) None _ _ _ HM HE SV (r1_svd_sound _ _ _ _ SV)) as (c & Hc & Hco); [cbn; lia|].
  pose proof (wmod_svd _ _ _ _ _ _ HE (r1_svd_sound _ _ _ _ SV)) as Hokw.
  destruct (regress_model_run _ _ _ _ _ _ _ _ _ Hc HE Hokw Hco) as (f & Hf & _ & _ & _ & F4 & _).
  split; [exact r1_svd_sound|]. split; [exact HM|]. split; [exact HE|]. split.
  { intros m u s v _ H. unfold r1_svd in H.
    repeat match type of H with context [if ?c then _ else _] => destruct c; [|discriminate] end.
    injection H as <- <- <-. intros [|[|q]] Hq; cbn in Hq; try lia; [right|left; reflexivity]. unfold kept. cbn [nth]. exact RC. }
  split.
  - exists (rg_p c). split; [unfold regress; rewrite Hc; reflexivity|].
    destruct (co_p _ _ _ _ _ _ _ _ Hco) as [_ P2]. rewrite !P2. unfold pspec, rsq, keepb, bpt, npts.
    cbn [length rsum nth r1_u r1_v at2 size shp r1_data vec fold_right Nat.mul Nat.add].
    destruct (Rltb_spec (rcond_of None * 15) 15); [|contradiction]. destruct (Rltb_spec (rcond_of None * 15) 0); [contradiction|].
    cbn. split; field.
  - exists f. split; [exact Hf|]. rewrite F4. unfold nkept. cbn [nth filter].
    destruct (Rlt_dec (rcond_of None * 15) 15); [|contradiction]. destruct (Rlt_dec (rcond_of None * 15) 0); [contradiction|]. reflexivity.
Qed.
(* the refutation of C64 applies to data of shape (2,3) *)
Example C64_case (svd : arr2 R -> res (arr2 R * list R * arr2 R)) :
  regress svd (full [2%nat; 3%nat] 1) [full [] 1] (Some (full [2%nat; 3%nat] 1)) None = Err ValueError.
Proof. apply (C64_refuted svd _ _ _ _ [2%nat] 3%nat); cbn; auto; lia. Qed.

Print Assumptions C62_regress.
Print Assumptions C63_covariance.
Print Assumptions C64_column_refuted.
