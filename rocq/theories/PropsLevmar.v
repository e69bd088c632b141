(* C65-C69, C71: levmar and numerical_partials (npplus/lsqfit.py:159-394, 530-562). *)
From Coq Require Import List Arith ZArith Bool Lia Reals Lra Classical.
From Verif Require Import Num PyBase NdArray NdLemmas PwPoly RSum SolvePer SolveProofs Gauss LsqModel Levmar LevmarProofs LevmarDescent LevmarTerm PropsRegress.
Import ListNotations.

(* numpy.linalg.solve returns a vector as long as the right hand side *)
Definition solve_len {K} (solve : arr2 K -> list K -> res (list K)) : Prop :=
  forall a b x, solve a b = Ok x -> length x = length b.

(* parameter i is named by pfix, counting from the end for negative numbers *)
Definition fixed_par (n : nat) (pfix : option (list Z)) (i : nat) : Prop :=
  exists l z, pfix = Some l /\ In z l /\ (z = Z.of_nat i \/ z = Z.of_nat i - Z.of_nat n)%Z.
Lemma fixed_par_index n i z : (i < n)%nat -> (z = Z.of_nat i \/ z = Z.of_nat i - Z.of_nat n)%Z <-> py_index n z = Some i.
Proof.
  intros Hi. split.
  - unfold py_index. intros [-> | ->].
    + destruct (Z.ltb_spec (Z.of_nat i) 0); [lia|]. destruct (Z.ltb_spec (Z.of_nat i) (Z.of_nat n)); [|lia]. f_equal. lia.
    + destruct (Z.ltb_spec (Z.of_nat i - Z.of_nat n) 0); [|lia].
      destruct (Z.ltb_spec (Z.of_nat n + (Z.of_nat i - Z.of_nat n)) 0); [lia|]. f_equal. lia.
  - intros H. apply py_index_spec in H. apply H.
Qed.
Lemma mask_fixed n pfix mask i : mask_of n pfix = Ok mask -> (i < n)%nat ->
  (nth i mask true = false <-> fixed_par n pfix i).
Proof.
  intros H Hi. destruct (mask_of_spec _ _ _ H) as [_ S]. rewrite S by auto. unfold fixed_par.
  split; intros (l & z & H1 & H2 & H3); exists l, z; repeat split; auto; apply fixed_par_index; auto.
Qed.

(* C65: in every call of f, and in the result, the fixed parameters have their values
   in p0 exactly.  Any arithmetic (floats included), any stateful f. *)
Theorem C65_fixed {K} {NK : Num K} f (solve : arr2 K -> list K -> res (list K)) inv fo fi cfg data p0 kw :
  solve_len solve ->
  let out := levmar_run f solve inv fo fi cfg data p0 kw [] in
  let keeps q := length q = length p0 /\
     forall i, (i < length p0)%nat -> fixed_par (length p0) (k_pfix kw) i -> nth i q n0 = nth i p0 n0 in
  (forall q, In q (snd out) -> keeps q) /\ (forall m, fst out = Ok (Some m) -> keeps (l_p m)).
Proof.
  intros Hs out keeps.
  destruct (levmar_inv f solve inv Hs fo fi cfg data p0 kw (fun _ _ _ _ => True)) as [H1 H2].
  { intros; repeat split; auto. }
  assert (T : forall q, (exists mask pmin pmax fp, mask_of (length p0) (k_pfix kw) = Ok mask /\ bc_opt (length p0) (k_pmin kw) = Ok pmin /\
      bc_opt (length p0) (k_pmax kw) = Ok pmax /\ length fp = nfree mask /\ True /\ q = put mask p0 fp) -> keeps q).
  { intros q (mask & pmin & pmax & fp & E & _ & _ & _ & _ & ->). split; [apply put_length|].
    intros i Hi Hf. apply put_fixed. apply (mask_fixed _ _ _ _ E Hi). exact Hf. }
  split.
  - intros q Hq. rewrite Forall_forall in H1. apply T, H1, Hq.
  - intros m Hm. apply T, H2, Hm.
Qed.

Local Open Scope R_scope.

(* a bound given as one number for all parameters or one per parameter *)
Definition bnd (l : list R) (i : nat) : R := match l with [x] => x | _ => nth i l 0 end.
Definition within (kw : @lmkw R) (i : nat) (x : R) : Prop :=
  (forall l, k_pmin kw = Some l -> bnd l i <= x) /\ (forall l, k_pmax kw = Some l -> x <= bnd l i).
Definition step_abs (cfg : @lmcfg R) (kw : @lmkw R) (i : nat) : R :=
  match k_pabs kw with Some l => bnd l i | None => c_pabs cfg end.

Lemma bc_opt_bnd n (o : option (list R)) l : bc_opt n o = Ok (Some l) ->
  exists l0, o = Some l0 /\ forall i, (i < n)%nat -> nth i l 0 = bnd l0 i.
Proof.
  unfold bc_opt. destruct o as [l0|]; [|discriminate]. destruct (bc_list n l0) as [l1|] eqn:E; cbn; [|discriminate].
  intros H. injection H as <-. exists l0. split; auto. intros i Hi. apply (bc_list_nth n l0 l1 i 0 E Hi).
Qed.

(* the bounds of the free parameters, in terms of the selected lists *)
Definition inside (lo hi : option (list R)) (n : nat) (fp : list R) : Prop :=
  forall j, (j < n)%nat -> (forall l, lo = Some l -> nth j l 0 <= nth j fp 0) /\ (forall l, hi = Some l -> nth j fp 0 <= nth j l 0).

Lemma clip_inside lo hi n fp step : length fp = n -> length step = n ->
  (forall l, lo = Some l -> length l = n) -> (forall l, hi = Some l -> length l = n) ->
  (forall l h, lo = Some l -> hi = Some h -> forall j, (j < n)%nat -> nth j l 0 <= nth j h 0) ->
  inside lo hi n (clip lo hi (zipw nadd fp step)).
Proof.
  intros L1 L2 L3 L4 LE j Hj. unfold clip.
  assert (Lz : length (@zipw R R R nadd fp step) = n) by (rewrite zipw_length; lia).
  destruct lo as [l|], hi as [h|]; specialize (L3) ; split; intros q Hq; try discriminate; injection Hq as <-.
  - rewrite (nth_zipw2 nmin _ _ _ 0 0) by (rewrite !zipw_length, (L3 l), (L4 h), L1, L2; auto; lia).
    rewrite (nth_zipw2 nmax _ _ _ 0 0) by (rewrite !zipw_length, (L3 l), L1, L2; auto; lia).
    rewrite nmin_R, nmax_R. apply Rmin_glb; [apply Rmax_r|]. apply (LE l h eq_refl eq_refl j Hj).
  - rewrite (nth_zipw2 nmin _ _ _ 0 0) by (rewrite !zipw_length, (L3 l), (L4 h), L1, L2; auto; lia).
    rewrite nmin_R. apply Rmin_r.
  - rewrite (nth_zipw2 nmax _ _ _ 0 0) by (rewrite !zipw_length, (L3 l), L1, L2; auto; lia).
    rewrite nmax_R. apply Rmax_r.
  - rewrite (nth_zipw2 nmin _ _ _ 0 0) by (rewrite !zipw_length, (L4 h), L1, L2; auto; lia).
    rewrite nmin_R. apply Rmin_r.
Qed.

(* entries of the step list after the upper bound check *)
Lemma np_flip_spec lo hi n fp dp dps : length fp = n -> length dp = n ->
  (forall l, lo = Some l -> length l = n) -> (forall l, hi = Some l -> length l = n) ->
  np_flip lo hi fp dp = Ok dps ->
  forall j, (j < n)%nat ->
  match hi with
  | None => nth j dps 0 = nth j dp 0
  | Some h =>
    if Rlt_dec (nth j h 0) (nth j fp 0 + nth j dp 0) then
      nth j dps 0 = - nth j dp 0 /\ (forall l, lo = Some l -> nth j l 0 <= nth j fp 0 - nth j dp 0)
    else nth j dps 0 = nth j dp 0
  end.
Proof.
  intros L1 L2 L3 L4 H j Hj. unfold np_flip in H. destruct hi as [h|]; [|injection H as <-; reflexivity].
  specialize (L4 h eq_refl).
  set (mask := zipw (fun xd h => (h <? fst xd + snd xd)%K) (combine fp dp) h) in *.
  set (dp' := zipw (fun (m : bool) d => if m then (d * - n1)%K else d) mask dp) in *.
  assert (Lm : length mask = n) by (unfold mask; rewrite zipw_length, combine_length; lia).
  assert (Ld : length dp' = n) by (unfold dp'; rewrite zipw_length; lia).
  assert (Mj : nth j mask false = Rltb (nth j h 0) (nth j fp 0 + nth j dp 0)).
  { unfold mask. rewrite (nth_zipw2 _ _ _ _ (0, 0) 0) by (rewrite combine_length; lia).
    rewrite combine_nth by lia. reflexivity. }
  assert (Dj : nth j dp' 0 = if Rlt_dec (nth j h 0) (nth j fp 0 + nth j dp 0) then - nth j dp 0 else nth j dp 0).
  { unfold dp'. rewrite (nth_zipw2 _ _ _ _ false 0) by lia. rewrite Mj. unfold Rltb.
    destruct (Rlt_dec _ _); [numR; ring|reflexivity]. }
  destruct (Rlt_dec (nth j h 0) (nth j fp 0 + nth j dp 0)) as [Hlt|Hge].
  - assert (EX : existsb (fun m => m) mask = true).
    { apply existsb_exists. exists true. split; auto. assert (Q : nth j mask false = true) by (rewrite Mj; unfold Rltb; destruct (Rlt_dec _ _); [reflexivity|contradiction]).
      rewrite <- Q. apply nth_In. lia. }
    rewrite EX in H. destruct lo as [l|].
    + destruct (existsb _ _) eqn:EL in H; [discriminate|]. injection H as <-. split; [exact Dj|].
      intros l' Hl'. injection Hl' as <-. specialize (L3 l eq_refl).
      set (ck := zipw (fun xd l => (fst xd + snd xd <? l)%K) (combine fp dp') l) in EL.
      assert (Lc : length ck = n) by (unfold ck; rewrite zipw_length, combine_length; lia).
      assert (Q : nth j ck false = false).
      { destruct (nth j ck false) eqn:Q; auto. exfalso. assert (Z : existsb (fun b => b) ck = true).
        { apply existsb_exists. exists true. split; auto. rewrite <- Q. apply nth_In. lia. } congruence. }
      unfold ck in Q. rewrite (nth_zipw2 _ _ _ _ (0, 0) 0) in Q by (rewrite combine_length; lia).
      rewrite combine_nth in Q by lia. cbn [fst snd] in Q. rewrite Dj in Q. numR.
      destruct (Rltb_spec (nth j fp 0 + - nth j dp 0) (nth j l 0)); [discriminate|]. lra.
    + injection H as <-. split; [exact Dj|]. discriminate.
  - destruct (existsb (fun m => m) mask).
    + destruct lo as [l|]; [destruct (existsb _ _); [discriminate|]|]; injection H as <-; exact Dj.
    + injection H as <-. exact Dj.
Qed.

(* C66: with p0 inside the bounds, f is called only with free parameters inside them,
   finite differences included, and the result is inside *)
Theorem C66_bounds f solve inv fo fi cfg data p0 (kw : @lmkw R) :
  solve_len solve ->
  let free i := (i < length p0)%nat /\ ~ fixed_par (length p0) (k_pfix kw) i in
  (forall i, free i -> within kw i (nth i p0 0)) ->
  (forall i, free i -> 0 <= step_abs cfg kw i) ->
  let out := levmar_run f solve inv fo fi cfg data p0 kw [] in
  (forall q, In q (snd out) -> forall i, free i -> within kw i (nth i q 0)) /\
  (forall m, fst out = Ok (Some m) -> forall i, free i -> within kw i (nth i (l_p m) 0)).
Proof.
  intros Hs free Hp0 Hab out.
  set (G := fun (mask : list bool) pmin pmax (fp : list R) => inside (option_map (sel mask) pmin) (option_map (sel mask) pmax) (nfree mask) fp).
  destruct (levmar_inv f solve inv Hs fo fi cfg data p0 kw G) as [H1 H2].
  - intros mask pmin pmax prel pabs Em E1 E2 E3 E4. cbn zeta.
    destruct (mask_of_spec _ _ _ Em) as [Lm _].
    assert (FR : forall j, (j < nfree mask)%nat -> exists i, free i /\ nth i mask false = true /\ rank_of mask i = j).
    { intros j Hj. destruct (rank_onto mask j Hj) as (i & Hi & Hr). exists i.
      assert (Li : (i < length p0)%nat).
      { destruct (Nat.lt_ge_cases i (length p0)); auto. rewrite nth_overflow in Hi by lia. discriminate. }
      repeat split; auto. intros Hf. apply (mask_fixed _ _ _ _ Em Li) in Hf.
      rewrite (nth_indep _ true false) in Hf by lia. congruence. }
    assert (SN : forall (l : list R) i j, nth i mask false = true -> rank_of mask i = j -> nth j (sel mask l) 0 = nth i l 0).
    { intros l i j Hi <-. apply sel_nth. exact Hi. }
    assert (LO : forall l, option_map (sel mask) pmin = Some l -> length l = nfree mask /\
              forall i j, (i < length p0)%nat -> nth i mask false = true -> rank_of mask i = j -> exists l0, k_pmin kw = Some l0 /\ nth j l 0 = bnd l0 i).
    { intros l Hl. destruct pmin as [pl|]; [|discriminate]. injection Hl as <-. split.
      - apply sel_length. rewrite Lm. symmetry. eapply bc_opt_len; eauto.
      - intros i j Li Hi Hr. destruct (bc_opt_bnd _ _ _ E1) as (l0 & Hl0 & Hb). exists l0. split; auto.
        rewrite (SN pl i j Hi Hr). apply Hb, Li. }
    assert (HI : forall l, option_map (sel mask) pmax = Some l -> length l = nfree mask /\
              forall i j, (i < length p0)%nat -> nth i mask false = true -> rank_of mask i = j -> exists l0, k_pmax kw = Some l0 /\ nth j l 0 = bnd l0 i).
    { intros l Hl. destruct pmax as [pl|]; [|discriminate]. injection Hl as <-. split.
      - apply sel_length. rewrite Lm. symmetry. eapply bc_opt_len; eauto.
      - intros i j Li Hi Hr. destruct (bc_opt_bnd _ _ _ E2) as (l0 & Hl0 & Hb). exists l0. split; auto.
        rewrite (SN pl i j Hi Hr). apply Hb, Li. }
    assert (P0 : inside (option_map (sel mask) pmin) (option_map (sel mask) pmax) (nfree mask) (sel mask p0)).
    { intros j Hj. destruct (FR j Hj) as (i & Hf & Hi & Hr). destruct (Hp0 i Hf) as [B1 B2].
      rewrite (SN p0 i j Hi Hr). split; intros l Hl.
      - destruct (LO l Hl) as [_ X]. destruct (X i j (proj1 Hf) Hi Hr) as (l0 & Hl0 & ->). apply B1, Hl0.
      - destruct (HI l Hl) as [_ X]. destruct (X i j (proj1 Hf) Hi Hr) as (l0 & Hl0 & ->). apply B2, Hl0. }
    assert (LE : forall l h, option_map (sel mask) pmin = Some l -> option_map (sel mask) pmax = Some h ->
              forall j, (j < nfree mask)%nat -> nth j l 0 <= nth j h 0).
    { intros l h Hl Hh j Hj. destruct (P0 j Hj) as [X Y]. specialize (X l Hl). specialize (Y h Hh). lra. }
    split; [exact P0|]. split.
    + intros fp dps Lf Hg Hflip i Hi. unfold G in *.
      set (dp := np_steps prel pabs mask (put mask p0 fp)) in *.
      assert (Ld : length dp = nfree mask).
      { unfold dp, np_steps. apply sel_length. rewrite zipw_length, combine_length, put_length.
        apply bc_list_len in E3. apply bc_list_len in E4. lia. }
      assert (Dpos : 0 <= nth i dp 0).
      { destruct (FR i Hi) as (k & Hf & Hk & Hr). unfold dp, np_steps. rewrite (SN _ k i Hk Hr).
        pose proof (bc_list_len _ _ _ E3). pose proof (bc_list_len _ _ _ E4).
        rewrite (nth_zipw2 _ _ _ _ (0, 0) 0) by (rewrite combine_length, put_length; destruct Hf; lia).
        rewrite nmax_R. apply Rle_trans with (nth k pabs 0); [|apply Rmax_r].
        rewrite (bc_list_nth _ _ _ _ 0 E4) by apply Hf. specialize (Hab k Hf). unfold step_abs, bnd in Hab.
        destruct (k_pabs kw) as [l|]; exact Hab. }
      pose proof (np_flip_spec _ _ (nfree mask) fp dp dps Lf Ld (fun l Hl => proj1 (LO l Hl)) (fun l Hl => proj1 (HI l Hl)) Hflip i Hi) as FS.
      intros j Hj. destruct (Hg j Hj) as [G1 G2]. destruct (Nat.eq_dec i j) as [<-|Hne]; [|rewrite nth_upd_neq by auto; split; assumption].
      rewrite nth_upd_eq by lia. numR.
      destruct (option_map (sel mask) pmax) as [h|].
      * specialize (G2 h eq_refl). destruct (Rlt_dec _ _) as [Hlt|Hge].
        -- destruct FS as [-> FS]. split; intros l Hl; [specialize (FS l Hl); lra|injection Hl as <-; lra].
        -- rewrite FS. split; intros l Hl; [specialize (G1 l Hl); lra|injection Hl as <-; lra].
      * rewrite FS. split; intros l Hl; [specialize (G1 l Hl); lra|discriminate].
    + intros fp step Lf Hg Ls. apply clip_inside; auto; intros; [apply LO|apply HI]; auto.
  - assert (T : forall q, (exists mask pmin pmax fp, mask_of (length p0) (k_pfix kw) = Ok mask /\ bc_opt (length p0) (k_pmin kw) = Ok pmin /\
      bc_opt (length p0) (k_pmax kw) = Ok pmax /\ length fp = nfree mask /\ G mask pmin pmax fp /\ q = put mask p0 fp) ->
      forall i, free i -> within kw i (nth i q 0)).
    { intros q (mask & pmin & pmax & fp & Em & E1 & E2 & Lf & Hg & ->) i [Li Hf].
      destruct (mask_of_spec _ _ _ Em) as [Lm _].
      assert (Hi : nth i mask false = true).
      { rewrite (nth_indep _ false true) by lia. destruct (nth i mask true) eqn:Q; auto. exfalso. apply Hf.
        apply (mask_fixed _ _ _ _ Em Li). exact Q. }
      pose proof (sel_nth mask (put mask p0 fp) i 0 Hi) as SQ. rewrite sel_put in SQ by lia. rewrite <- SQ.
      destruct (Hg (rank_of mask i) (rank_lt _ _ Hi)) as [G1 G2]. split; intros l Hl.
      - rewrite Hl in E1. destruct pmin as [pl|].
        + destruct (bc_opt_bnd _ _ _ E1) as (l0 & Hl0 & Hb). injection Hl0 as <-. rewrite <- (Hb i Li).
          rewrite <- (sel_nth mask pl i 0 Hi). apply G1. reflexivity.
        + unfold bc_opt in E1. destruct (bc_list _ l); discriminate.
      - rewrite Hl in E2. destruct pmax as [pl|].
        + destruct (bc_opt_bnd _ _ _ E2) as (l0 & Hl0 & Hb). injection Hl0 as <-. rewrite <- (Hb i Li).
          rewrite <- (sel_nth mask pl i 0 Hi). apply G2. reflexivity.
        + unfold bc_opt in E2. destruct (bc_list _ l); discriminate. }
    split.
    + intros q Hq. rewrite Forall_forall in H1. apply T, H1, Hq.
    + intros m Hm. apply T, H2, Hm.
Qed.

(* ---- C67: the chi2 history ---- *)

(* standard deviation of point t; errs conformable with data and nowhere zero *)
Definition leps (data : nd R) (kw : @lmkw R) (t : nat) : R :=
  match k_errs kw with None => 1 | Some e => bget e (unravel (shp data) t) end.
Definition lerrs_ok (data : nd R) (kw : @lmkw R) : Prop :=
  match k_errs kw with
  | None => True
  | Some e => bto (shp e) (shp data) = true /\ forall t, (t < npts data)%nat -> leps data kw t <> 0
  end.
(* the function returns one value per (raveled) data point, or one for all *)
Definition val_ok (val : list R -> res (nd R)) (data : nd R) : Prop :=
  forall p v, val p = Ok v -> bto (shp v) [npts data] = true.
(* the sum of squares *)
Definition lcost (val : list R -> res (nd R)) (data : nd R) (kw : @lmkw R) (p : list R) : R :=
  match val p with
  | Ok v => rsum (npts data) (fun t => ((dpt data t - bget v [t]) / leps data kw t) ^ 2)
  | Err _ => 0
  end.
Lemma lcost_nonneg val data kw p : 0 <= lcost val data kw p.
Proof. unfold lcost. destruct (val p); [|lra]. apply rsum_nonneg. intros. apply pow2_ge_0. Qed.

Lemma lerrs_run data kw : lerrs_ok data kw ->
  exists errs, errs_of data kw = Ok errs /\ shp errs = shp data /\
    forall t, (t < npts data)%nat -> get errs (unravel (shp data) t) = leps data kw t /\ leps data kw t <> 0.
Proof.
  unfold lerrs_ok, errs_of, leps. destruct (k_errs kw) as [e|]; intros H.
  - destruct H as [H1 H2]. unfold nd_map2. cbn [shp full]. rewrite bshape_comm, (bshape_of_bto _ _ H1).
    eexists. split; [reflexivity|]. split; [reflexivity|]. intros t Ht. cbn [get]. split; [|apply H2, Ht].
    unfold bget at 2. cbn [get full]. numR. ring.
  - eexists. split; [reflexivity|]. split; [reflexivity|]. intros t Ht. cbn. split; [reflexivity|]. numR. lra.
Qed.
Lemma unravel1 N t : unravel [N] t = [t].
Proof. unfold unravel. change (size []) with 1%nat. rewrite Nat.div_1_r. reflexivity. Qed.
Lemma inb1 N t : (t < N)%nat -> inb [t] [N].
Proof. intros H. constructor; [exact H|constructor]. Qed.
Lemma map2_N {A B C} (g : A -> B -> C) (a : nd A) (b : nd B) N : shp a = [N] -> bto (shp b) [N] = true ->
  exists c, nd_map2 g a b = Ok c /\ shp c = [N] /\ forall t, (t < N)%nat -> get c [t] = g (get a [t]) (bget b [t]).
Proof.
  intros Ha Hb. unfold nd_map2. rewrite Ha, (bshape_of_bto _ _ Hb). eexists. split; [reflexivity|]. split; [reflexivity|].
  intros t Ht. cbn [get]. rewrite (bget_self a) by (rewrite Ha; apply inb1, Ht). reflexivity.
Qed.
Lemma bto_self (a : nd R) N : shp a = [N] -> bto (shp a) [N] = true.
Proof. intros ->. apply bto_refl'. Qed.
Lemma chisq_val data kw errs v : errs_of data kw = Ok errs -> shp errs = shp data ->
  (forall t, (t < npts data)%nat -> get errs (unravel (shp data) t) = leps data kw t /\ leps data kw t <> 0) ->
  bto (shp v) [npts data] = true ->
  chisq (nravel data) (wgt_of errs) v = Ok (rsum (npts data) (fun t => ((dpt data t - bget v [t]) / leps data kw t) ^ 2)).
Proof.
  intros E Hs He Hv. unfold chisq.
  destruct (map2_N nsub (nravel data) v (npts data) eq_refl Hv) as (dm & -> & S1 & G1). cbn [bind].
  assert (Sw : shp (wgt_of errs) = [npts data]) by (unfold wgt_of, nravel, npts; cbn; rewrite Hs; reflexivity).
  destruct (map2_N nmul (wgt_of errs) dm (npts data) Sw (bto_self _ _ S1)) as (b & -> & S2 & G2). cbn [bind].
  destruct (map2_N nmul b dm (npts data) S2 (bto_self _ _ S1)) as (c & -> & S3 & G3). cbn [bind].
  f_equal. unfold asum. rewrite ksum_rsum, S3, size1. apply rsum_ext. intros t Ht.
  rewrite unravel1, G3, G2 by exact Ht. rewrite (bget_self dm) by (rewrite S1; apply inb1, Ht). rewrite G1 by exact Ht.
  destruct (He t Ht) as [E1 E2]. unfold wgt_of, nravel, nd_map. cbn [get hd]. rewrite Hs, E1. fold (dpt data t). numR. field. exact E2.
Qed.

(* C67, what holds: the accepted iterates its = [p0; ...; returned parameters] are
   parameters f was called with and returned a value, chi2 falls strictly from one to the next except
   possibly in the last step, where it grows by less than a factor 1.000001 or the
   parameters stay the same.  So the result is at most 1.000001 times worse than any
   iterate, and the reported chi2 is that of the returned parameters. *)
Theorem C67_partial f solve inv val fo fi cfg data p0 kw m :
  solve_len solve -> det_val f val -> val_ok val data -> lerrs_ok data kw -> 0 <= c_tol cfg ->
  let out := levmar_run f solve inv fo fi cfg data p0 kw [] in
  let chi2 := lcost val data kw in
  fst out = Ok (Some m) ->
  (l_chi2 m = chi2 (l_p m) / IZR (l_ndof m) /\ l_chi20 m = chi2 p0 / IZR (l_ndof m)) /\
  exists its, let k := (length its - 1)%nat in let it i := nth i its [] in
    (its <> [] /\ it 0%nat = p0 /\ it k = l_p m /\ Forall (fun q => In q (snd out) /\ exists v, val q = Ok v) its) /\
    (forall i, (S i < k)%nat -> chi2 (it (S i)) < chi2 (it i)) /\
    (k = 0%nat -> chi2 p0 = 0) /\
    (forall i, S i = k -> chi2 (it k) < 1000001 / 1000000 * chi2 (it i) \/ it k = it i) /\
    (forall i, (i < k)%nat -> chi2 (l_p m) <= 1000001 / 1000000 * chi2 (it i)) /\
    (Z.of_nat k <= l_niter m + 1)%Z.
Proof.
  intros Hsl Hdet Hval Herr Htol out chi2 Hout.
  destruct (lerrs_run _ _ Herr) as (errs & He & Hs & Hee).
  unfold out in *. clear out.
  destruct (levmar_unfold f solve inv fo fi cfg data p0 kw) as [[e E]|(errs' & pmin & pmax & prel & pabs & mask & E0 & Em & E1 & E2 & E3 & E4 & E)];
    rewrite E in *; [discriminate|].
  rewrite He in E0. injection E0 as <-.
  set (cst := fun q => chi2 (put mask p0 q)).
  destruct (mask_of_spec _ _ _ Em) as [Lm _].
  assert (Hc : forall p v c, val (put mask p0 p) = Ok v -> chisq (nravel data) (wgt_of errs) v = Ok c -> c = cst p).
  { intros p v c Hv Hc. rewrite (chisq_val data kw errs v He Hs Hee (Hval _ _ Hv)) in Hc. injection Hc as <-.
    unfold cst, chi2, lcost. rewrite Hv. reflexivity. }
  pose proof (d_outer f solve val Hdet (nravel data) (wgt_of errs) p0 mask (option_map (sel mask) pmin) (option_map (sel mask) pmax)
     prel pabs cfg cst Hc (fun p => lcost_nonneg val data kw _) Htol fo fi (sel mask p0) None (c_lambda0 cfg) 0%Z 0%nat []) as D.
  specialize (D ltac:(discriminate) [] (Forall_nil _)).
  destruct (lm_outer f solve _ _ _ _ _ _ _ _ _ _ _ _ _ _ _ _ []) as [[[o|]|e] tr]; cbn [lm_finish] in *; try discriminate.
  destruct (inv (o_alpha o)) as [ai|]; [|discriminate]. destruct (spread mask ai) as [pc|]; [|discriminate].
  cbn [fst snd] in *. injection Hout as <-. cbn [l_p l_chi2 l_chi20 l_ndof l_niter].
  destruct D as [_ D]. destruct (D o eq_refl) as (D1 & D2 & l & (H0 & H1 & H2 & H3 & H4) & D4 & D5 & D6).
  assert (Ep0 : put mask p0 (sel mask p0) = p0) by (apply put_sel; auto).
  split. { rewrite D1, D2. unfold cst. rewrite Ep0. split; reflexivity. }
  set (g := put mask p0).
  assert (Nth : forall i, (i < length l)%nat -> nth i (map g l) [] = g (nth i l [])).
  { intros i Hi. rewrite (nth_indep _ [] (g [])) by (rewrite map_length; auto). apply map_nth. }
  assert (Ll : (0 < length l)%nat) by (destruct l; [contradiction|cbn; lia]).
  exists (map g l). rewrite map_length. cbn zeta.
  assert (Mono : forall j i, (i <= j)%nat -> (S j < length l)%nat -> cst (nth j l []) <= cst (nth i l [])).
  { induction j as [|j IH]; intros i Hi Hj; [replace i with 0%nat by lia; lra|].
    destruct (Nat.eq_dec i (S j)) as [->|Hne]; [lra|]. specialize (IH i ltac:(lia) ltac:(lia)). specialize (H3 j ltac:(lia)). lra. }
  assert (Last : forall i, S i = (length l - 1)%nat -> cst (o_p o) < 1000001 / 1000000 * cst (nth i l []) \/ o_p o = nth i l []).
  { intros i Hi. rewrite <- Hi in H4. exact H4. }
  split; [repeat split|].
  - destruct l; [contradiction|discriminate].
  - rewrite Nth, H1 by lia. exact Ep0.
  - rewrite Nth, H2 by lia. reflexivity.
  - apply Forall_forall. intros q Hq. apply in_map_iff in Hq as (x & <- & Hx). unfold allcalled in D4. rewrite Forall_forall in D4. apply D4, Hx.
  - split; [|split; [|split; [|split]]].
    + intros i Hi. rewrite !Nth by lia. apply (H3 i). lia.
    + intros Hk. rewrite Hk in H4, H2. assert (Q : o_p o = sel mask p0) by congruence. rewrite Q in H4. unfold cst in H4. rewrite Ep0 in H4. exact H4.
    + intros i Hi. rewrite !Nth, H2 by lia. destruct (Last i Hi) as [H|H]; [left; exact H|right; rewrite H; reflexivity].
    + intros i Hi. rewrite Nth by lia. change (cst (o_p o) <= 1000001 / 1000000 * cst (nth i l [])).
      destruct (length l - 1)%nat as [|k] eqn:Ek; [lia|].
      specialize (Mono k i ltac:(lia) ltac:(lia)). pose proof (lcost_nonneg val data kw (g (nth i l []))) as P.
      change (0 <= cst (nth i l [])) in P.
      destruct (Last k eq_refl) as [H|H]; [lra|rewrite H; lra].
    + lia.
Qed.

(* numpy.linalg.solve and inv on square matrices, in exact arithmetic *)
Definition solve_ok (solve : arr2 R -> list R -> res (list R)) : Prop :=
  forall n a b, nr a = n -> SolvePer.nc a = n -> length b = n ->
  (nonsing n (at2 a) -> exists x, solve a b = Ok x /\ length x = n /\
     forall i, (i < n)%nat -> rsum n (fun j => at2 a i j * nth j x 0) = nth i b 0) /\
  (~ nonsing n (at2 a) -> solve a b = Err LinAlgError).
Definition inv_ok (inv : arr2 R -> res (arr2 R)) : Prop :=
  forall n a, nr a = n -> SolvePer.nc a = n ->
  (nonsing n (at2 a) -> exists c, inv a = Ok c /\ nr c = n /\ SolvePer.nc c = n /\
     forall i j, (i < n)%nat -> (j < n)%nat -> rsum n (fun k => at2 c i k * at2 a k j) = if (i =? j)%nat then 1 else 0) /\
  (~ nonsing n (at2 a) -> inv a = Err LinAlgError).
Lemma nonsing1 a : a 0%nat 0%nat <> 0 -> nonsing 1 a.
Proof.
  intros Ha v Hv j Hj. specialize (Hv 0%nat Nat.lt_0_1). cbn in Hv. replace j with 0%nat by lia. rewrite Rplus_0_l in Hv.
  apply Rmult_integral in Hv as [|]; [contradiction|assumption].
Qed.

(* such functions exist: elimination on the identity *)
Definition eye (n : nat) : arr2 R := Arr2 n n (fun i j => if (i =? j)%nat then 1 else 0).
Definition sq (a : arr2 R) : bool := (nr a =? SolvePer.nc a)%nat.
Definition g_inv (a : arr2 R) : res (arr2 R) :=
  if sq a then match gsolve (nr a) (at2 a) (eye (nr a)) with Ok x => Ok x | Err _ => Err LinAlgError end else Err LinAlgError.
Definition g_solve (a : arr2 R) (b : list R) : res (list R) :=
  if (length b =? nr a)%nat then
    bind (g_inv a) (fun x => Ok (map (fun i => rsum (nr a) (fun j => at2 x i j * nth j b 0)) (seq 0 (nr a))))
  else Err LinAlgError.
Lemma mat_assoc n (a b : nat -> nat -> R) (v : nat -> R) i :
  rsum n (fun j => a i j * rsum n (fun k => b j k * v k)) = rsum n (fun k => rsum n (fun j => a i j * b j k) * v k).
Proof.
  rewrite (rsum_ext n _ (fun j => rsum n (fun k => a i j * b j k * v k))).
  - rewrite rsum_swap. apply rsum_ext. intros k Hk. rewrite rsum_scal_r. reflexivity.
  - intros j Hj. rewrite <- rsum_scal. apply rsum_ext. intros k Hk. ring.
Qed.
Lemma rsum_pick n i (v : nat -> R) : (i < n)%nat -> rsum n (fun k => (if (i =? k)%nat then 1 else 0) * v k) = v i.
Proof.
  intros Hi. rewrite (rsum_single n i); auto.
  - rewrite Nat.eqb_refl. ring.
  - intros k _ Hk. destruct (Nat.eqb_spec i k); [congruence|ring].
Qed.
(* a right inverse is a left inverse *)
Lemma right_left n (a x : nat -> nat -> R) :
  (forall i j, (i < n)%nat -> (j < n)%nat -> rsum n (fun k => a i k * x k j) = if (i =? j)%nat then 1 else 0) ->
  nonsing n a /\ forall i j, (i < n)%nat -> (j < n)%nat -> rsum n (fun k => x i k * a k j) = if (i =? j)%nat then 1 else 0.
Proof.
  intros H.
  assert (NX : nonsing n x).
  { intros v Hv j Hj. rewrite <- (rsum_pick n j v Hj).
    rewrite (rsum_ext n _ (fun k => rsum n (fun i => a j i * x i k) * v k)) by (intros k Hk; rewrite H by auto; reflexivity).
    rewrite <- mat_assoc. apply rsum_zero. intros i Hi. rewrite Hv by auto. ring. }
  destruct (gsolve_complete n x (eye n) NX) as (y & Ey).
  destruct (gsolve_sound n x (eye n) y eq_refl Ey) as (_ & _ & Sy). cbn [eye at2 SolvePer.nc] in Sy.
  assert (AY : forall i j, (i < n)%nat -> (j < n)%nat -> a i j = at2 y i j).
  { intros i j Hi Hj. transitivity (rsum n (fun k => a i k * rsum n (fun l => x k l * at2 y l j))).
    - rewrite (rsum_ext n _ (fun k => a i k * (if (k =? j)%nat then 1 else 0))) by (intros k Hk; rewrite Sy by auto; reflexivity).
      rewrite (rsum_single n j); auto; [rewrite Nat.eqb_refl; ring|].
      intros k _ Hk. destruct (Nat.eqb_spec k j); [congruence|ring].
    - rewrite (mat_assoc n a x (fun l => at2 y l j)).
      rewrite (rsum_ext n _ (fun l => (if (i =? l)%nat then 1 else 0) * at2 y l j)) by (intros l Hl; rewrite H by auto; reflexivity).
      apply (rsum_pick n i (fun l => at2 y l j) Hi). }
  assert (XA : forall i j, (i < n)%nat -> (j < n)%nat -> rsum n (fun k => x i k * a k j) = if (i =? j)%nat then 1 else 0).
  { intros i j Hi Hj. rewrite <- (Sy i j Hi Hj). apply rsum_ext. intros k Hk. rewrite AY by auto. reflexivity. }
  split; [|exact XA].
  intros v Hv j Hj. rewrite <- (rsum_pick n j v Hj).
  rewrite (rsum_ext n _ (fun k => rsum n (fun i => x j i * a i k) * v k)) by (intros k Hk; rewrite XA by auto; reflexivity).
  rewrite <- mat_assoc. apply rsum_zero. intros i Hi. rewrite Hv by auto. ring.
Qed.
Lemma g_inv_spec n a : nr a = n -> SolvePer.nc a = n ->
  match g_inv a with
  | Ok c => nonsing n (at2 a) /\ nr c = n /\ SolvePer.nc c = n /\
      (forall i j, (i < n)%nat -> (j < n)%nat -> rsum n (fun k => at2 a i k * at2 c k j) = if (i =? j)%nat then 1 else 0) /\
      (forall i j, (i < n)%nat -> (j < n)%nat -> rsum n (fun k => at2 c i k * at2 a k j) = if (i =? j)%nat then 1 else 0)
  | Err e => ~ nonsing n (at2 a) /\ e = LinAlgError
  end.
Proof.
  intros H1 H2. unfold g_inv, sq. rewrite H1, H2, Nat.eqb_refl.
  destruct (gsolve n (at2 a) (eye n)) as [x|e] eqn:E.
  - destruct (gsolve_sound n (at2 a) (eye n) x eq_refl E) as (S1 & S2 & S3). cbn [eye at2 SolvePer.nc] in *.
    destruct (right_left n (at2 a) (at2 x)) as [R1 R2]; auto.
  - split; auto. intros HN. destruct (gsolve_complete n (at2 a) (eye n) HN) as [x Ex]. congruence.
Qed.
Lemma linalg_exists : solve_ok g_solve /\ inv_ok g_inv /\ solve_len g_solve.
Proof.
  split; [|split].
  - intros n a b H1 H2 H3. pose proof (g_inv_spec n a H1 H2) as G. unfold g_solve. rewrite H3, H1, Nat.eqb_refl.
    destruct (g_inv a) as [c|e]; cbn [bind].
    + destruct G as (G1 & G2 & G3 & G4 & G5). split; [|contradiction]. intros _. eexists. split; [reflexivity|].
      rewrite map_length, seq_length. split; auto. intros i Hi.
      rewrite (rsum_ext n _ (fun j => at2 a i j * rsum n (fun k => at2 c j k * nth k b 0))).
      * rewrite mat_assoc. rewrite (rsum_ext n _ (fun k => (if (i =? k)%nat then 1 else 0) * nth k b 0)) by (intros k Hk; rewrite G4 by auto; reflexivity).
        apply (rsum_pick n i (fun k => nth k b 0) Hi).
      * intros j Hj. f_equal.
        rewrite (nth_indep _ 0 (rsum n (fun k => at2 c 0%nat k * nth k b 0))) by (rewrite map_length, seq_length; auto).
        rewrite (map_nth (fun i => rsum n (fun k => at2 c i k * nth k b 0))). rewrite seq_nth by auto. reflexivity.
    + destruct G as [G1 ->]. split; [contradiction|reflexivity].
  - intros n a H1 H2. pose proof (g_inv_spec n a H1 H2) as G. destruct (g_inv a) as [c|e].
    + destruct G as (G1 & G2 & G3 & G4 & G5). split; [|contradiction]. intros _. exists c. auto.
    + destruct G as [G1 ->]. split; [contradiction|reflexivity].
  - intros a b x. unfold g_solve. destruct (Nat.eqb_spec (length b) (nr a)); [|discriminate].
    destruct (g_inv a); cbn [bind]; [|discriminate]. intros H. injection H as <-. rewrite map_length, seq_length. auto.
Qed.
Lemma solve_ok1 solve a b : solve_ok solve -> nr a = 1%nat -> SolvePer.nc a = 1%nat -> at2 a 0%nat 0%nat <> 0 ->
  solve a [b] = Ok [b / at2 a 0%nat 0%nat].
Proof.
  intros H H1 H2 Ha. destruct (H 1%nat a [b] H1 H2 eq_refl) as [A _].
  destruct (A (nonsing1 _ Ha)) as (x & Hx & L & E). destruct x as [|y [|]]; try discriminate. specialize (E 0%nat Nat.lt_0_1). cbn in E.
  rewrite Hx. f_equal. f_equal. field_simplify_eq; [lra|exact Ha].
Qed.
Lemma inv_ok1 inv a : inv_ok inv -> nr a = 1%nat -> SolvePer.nc a = 1%nat -> at2 a 0%nat 0%nat <> 0 ->
  exists c, inv a = Ok c /\ nr c = 1%nat /\ SolvePer.nc c = 1%nat /\ at2 c 0%nat 0%nat = / at2 a 0%nat 0%nat.
Proof.
  intros H H1 H2 Ha. destruct (H 1%nat a H1 H2) as [A _].
  destruct (A (nonsing1 _ Ha)) as (c & Hc & L1 & L2 & E). exists c. repeat split; auto.
  specialize (E 0%nat 0%nat Nat.lt_0_1 Nat.lt_0_1). cbn in E. field_simplify_eq; [lra|exact Ha].
Qed.
Lemma solve_ok1_eq solve a b r : solve_ok solve -> nr a = 1%nat -> SolvePer.nc a = 1%nat -> at2 a 0%nat 0%nat <> 0 ->
  at2 a 0%nat 0%nat * r = b -> solve a [b] = Ok [r].
Proof. intros H H1 H2 Ha <-. rewrite solve_ok1 by auto. f_equal. f_equal. field. exact Ha. Qed.

(* C67 as stated fails: the last step may make the fit worse.  f and its derivatives
   are polynomials. *)
Definition worse_f (p : list R) : nd R :=
  let x := nth 0 p 0 in vec 0 [x * (1 - 1001 / 1000 * x); - / 1000000 * x * x].
Definition worse_df (p : list R) : nd R :=
  let x := nth 0 p 0 in Nd [1; 2]%nat (fun idx => if (nth 1 idx 0 =? 0)%nat then 1 - 2 * (1001 / 1000) * x else - / 1000000 * 2 * x).
Definition no_kw : @lmkw R := LmKw None None None None None None.
(* evaluation of the code on concrete real numbers *)
Lemma Reqb_false a b : a <> b -> Reqb a b = false.
Proof. destruct (Reqb_spec a b); [contradiction|auto]. Qed.
Lemma Reqb_true a b : a = b -> Reqb a b = true.
Proof. destruct (Reqb_spec a b); [auto|contradiction]. Qed.
Lemma Rltb_true a b : a < b -> Rltb a b = true.
Proof. destruct (Rltb_spec a b); [auto|contradiction]. Qed.
Lemma Rltb_false a b : ~ a < b -> Rltb a b = false.
Proof. destruct (Rltb_spec a b); [contradiction|auto]. Qed.
Lemma Rleb_true a b : a <= b -> Rleb a b = true.
Proof. destruct (Rleb_spec a b); [auto|contradiction]. Qed.
Lemma Rleb_false a b : ~ a <= b -> Rleb a b = false.
Proof. destruct (Rleb_spec a b); [contradiction|auto]. Qed.
Lemma conv_neg u v t : u <= 0 -> 0 < v -> 0 <= t -> u / v + u / v <= t.
Proof. intros. unfold Rdiv. assert (0 < / v) by (apply Rinv_0_lt_compat; auto). nra. Qed.
Ltac revalc := cbv -[Rplus Rmult Ropp Rinv Rminus Rdiv IZR Reqb Rltb Rleb].

Theorem C67_refuted solve inv : solve_ok solve -> inv_ok inv ->
  exists m, let val p := Ok (worse_f p) in
    fst (levmar_run (LGen (fun _ p => (val p, Ok (worse_df p)))) solve inv 1 1 lm_default (vec 0 [1; 1]) [0] no_kw []) = Ok (Some m) /\
    lcost val (vec 0 [1; 1]) no_kw [0] < lcost val (vec 0 [1; 1]) no_kw (l_p m).
Proof.
  intros Hs Hi. cbn zeta.
  assert (H : exists m, fst (levmar_run (LGen (fun _ p => (Ok (worse_f p), Ok (worse_df p)))) solve inv 1 1 lm_default (vec 0 [1; 1]) [0] no_kw []) = Ok (Some m) /\
     l_p m = [0 + 1000 / 1001]).
  { revalc. rewrite Reqb_false by lra. revalc.
    match goal with |- context [solve ?a [?b]] => rewrite (solve_ok1_eq solve a b (1000 / 1001) Hs eq_refl eq_refl); [|cbn; lra|cbn; lra] end.
    revalc. rewrite Rltb_true by lra. revalc. rewrite Rleb_true by (apply conv_neg; lra). revalc.
    match goal with |- context [inv ?a] => destruct (inv_ok1 inv a Hi eq_refl eq_refl) as (c & -> & C1 & C2 & C3); [cbn; lra|] end.
    destruct c as [cr cc cg]. cbn in C1, C2. subst cr cc. revalc. eexists. split; reflexivity. }
  destruct H as (m & H1 & H2). exists m. split; [exact H1|]. rewrite H2. revalc. lra.
Qed.

(* ---- C68: termination ---- *)

(* passes of the outer loop; calls of f for the partial derivatives *)
Definition passes (cfg : @lmcfg R) : nat := Nat.max (Z.to_nat (c_itmax cfg)) 1.
Definition extra (f : @lfun R) (p0 : list R) : nat := match f with LPlain _ => length p0 | LGen _ => 0%nat end.
Lemma nfree_le mask : (nfree mask <= length mask)%nat.
Proof. unfold nfree. induction mask as [|[|] mask IH]; cbn; lia. Qed.

(* an exponent L as used below exists for every configuration *)
Lemma C68_exponent gain lam0 lamx : 1 < gain -> 0 < lam0 -> exists L, lamx < lam0 * gain ^ L.
Proof.
  intros Hg Hl. destruct (Pow_x_infinity gain) with (b := lamx / lam0 + 1) as [N HN]; [rewrite Rabs_right; lra|].
  exists N. specialize (HN N (Nat.le_refl N)). rewrite Rabs_right in HN.
  - apply Rlt_le_trans with (lam0 * (lamx / lam0 + 1)).
    + rewrite Rmult_plus_distr_l. unfold Rdiv. replace (lam0 * (lamx * / lam0)) with lamx by (field; lra). lra.
    + apply Rmult_le_compat_l; lra.
  - apply Rle_ge. apply pow_le. lra.
Qed.

(* C68: whatever f, the data and the linear solver do, the loops end after at most
   passes cfg and L + passes cfg rounds, and f has been called at most
   passes*(3+extra) + L times, when levmar returns or raises. *)
Theorem C68_terminates f solve inv fo fi cfg data p0 kw L :
  1 < c_gain cfg -> 0 < c_lambda0 cfg -> c_lambdax cfg < c_lambda0 cfg * c_gain cfg ^ L ->
  (passes cfg <= fo)%nat -> (L + passes cfg <= fi)%nat ->
  let out := levmar_run f solve inv fo fi cfg data p0 kw [] in
  fst out <> Ok None /\ (length (snd out) <= passes cfg * (3 + extra f p0) + L)%nat /\
  (forall m, fst out = Ok (Some m) -> (l_neval m <= 3 * passes cfg + L)%nat /\ (l_niter m <= Z.of_nat (passes cfg))%Z).
Proof.
  intros Hg H0 HL Hfo Hfi out. unfold out.
  destruct (levmar_unfold f solve inv fo fi cfg data p0 kw) as [[e E]|(errs & pmin & pmax & prel & pabs & mask & E0 & Em & E1 & E2 & E3 & E4 & E)];
    rewrite E; [cbn; repeat split; [discriminate|lia|discriminate|discriminate]|].
  destruct (mask_of_spec _ _ _ Em) as [Lm _].
  assert (Hnp : (npart f mask <= extra f p0)%nat) by (unfold npart, extra; destruct f; [rewrite <- Lm; apply nfree_le|lia]).
  pose proof (t_outer f solve (nravel data) (wgt_of errs) p0 mask (option_map (sel mask) pmin) (option_map (sel mask) pmax)
     prel pabs cfg Hg H0 L HL fi Hfi fo (sel mask p0) None (c_lambda0 cfg) 0 0 0 0) as T.
  cbn [pow] in T. specialize (T ltac:(unfold passes; lia) ltac:(unfold passes in Hfo; lia) eq_refl ltac:(lia) ltac:(lia) ltac:(lia) [] (Nat.le_refl 0)).
  fold (passes cfg) in T. change (Z.of_nat 0) with 0%Z in T. fold (passes cfg) in T.
  destruct (lm_outer f solve _ _ _ _ _ _ _ _ _ _ _ _ _ _ _ _ []) as [[r|e] tr].
  - destruct T as (T1 & o & -> & T2 & T3). unfold short in T1. cbn [lm_finish].
    assert (Lt : (length tr <= passes cfg * (3 + extra f p0) + L)%nat) by nia.
    destruct (inv (o_alpha o)) as [ai|]; [|cbn; repeat split; auto; discriminate].
    destruct (spread mask ai) as [pc|]; [|cbn; repeat split; auto; discriminate].
    cbn [fst snd]. split; [discriminate|]. split; [exact Lt|]. intros m Hm. injection Hm as <-. cbn. auto.
  - unfold short in T. cbn [lm_finish fst snd]. split; [discriminate|]. split; [nia|discriminate].
Qed.

(* conformable arguments with at least one free parameter *)
Definition len_ok (n : nat) (o : option (list R)) : Prop := forall l, o = Some l -> length l = n \/ length l = 1%nat.
Definition lm_args_ok (data : nd R) (p0 : list R) (kw : @lmkw R) : Prop :=
  let n := length p0 in
  (forall e, k_errs kw = Some e -> bto (shp e) (shp data) = true) /\
  (forall l, k_pfix kw = Some l -> l <> [] /\ forall z, In z l -> (- Z.of_nat n <= z < Z.of_nat n)%Z) /\
  len_ok n (k_pmin kw) /\ len_ok n (k_pmax kw) /\ len_ok n (k_prel kw) /\ len_ok n (k_pabs kw) /\
  exists i, (i < n)%nat /\ ~ fixed_par n (k_pfix kw) i.
(* f returns an array like the raveled data and, as a generator, partial derivatives
   with a leading axis for the parameters.  For finite differences the steps must not
   vanish; bounds on both sides are excluded because they may be too close. *)
Definition lm_fun_ok (f : @lfun R) (cfg : @lmcfg R) (data : nd R) (p0 : list R) (kw : @lmkw R) : Prop :=
  match f with
  | LPlain h => (forall k p, length p = length p0 -> exists v, h k p = Ok v /\ shp v = [npts data]) /\
                (k_pmin kw = None \/ k_pmax kw = None) /\ (forall i, (i < length p0)%nat -> 0 < step_abs cfg kw i)
  | LGen h => forall k p, length p = length p0 -> exists v d, h k p = (Ok v, Ok d) /\ shp v = [npts data] /\ shp d = [length p0; npts data]
  end.
(* numpy.linalg fails only with LinAlgError on square matrices *)
Definition linalg_raises (solve : arr2 R -> list R -> res (list R)) (inv : arr2 R -> res (arr2 R)) : Prop :=
  (forall n a b, nr a = n -> SolvePer.nc a = n -> length b = n ->
     (exists x, solve a b = Ok x /\ length x = n) \/ solve a b = Err LinAlgError) /\
  (forall n a, nr a = n -> SolvePer.nc a = n ->
     (exists c, inv a = Ok c /\ nr c = n /\ SolvePer.nc c = n) \/ inv a = Err LinAlgError).

Lemma bc_list_ok n (l : list R) : length l = n \/ length l = 1%nat -> exists l', bc_list n l = Ok l'.
Proof.
  intros H. unfold bc_list. destruct (Nat.eqb_spec (length l) n); [eauto|]. destruct H as [|H]; [contradiction|].
  destruct l as [|x [|]]; try discriminate. eauto.
Qed.
Lemma bc_opt_ok n o : len_ok n o -> exists o', bc_opt n o = Ok o' /\ (o = None -> o' = None).
Proof.
  intros H. unfold bc_opt. destruct o as [l|]; [|eauto]. destruct (bc_list_ok n l (H l eq_refl)) as (l' & ->). cbn. eexists. split; [reflexivity|discriminate].
Qed.
Lemma clear_idx_ok n idx : (forall z, In z idx -> (- Z.of_nat n <= z < Z.of_nat n)%Z) -> forall mask, exists m, clear_idx n idx mask = Ok m.
Proof.
  induction idx as [|z idx IH]; intros H mask; cbn; [eauto|]. specialize (H z (or_introl eq_refl)) as Hz.
  assert (E : exists k, py_index n z = Some k).
  { unfold py_index. destruct (Z.ltb_spec z 0).
    - destruct (Z.ltb_spec (Z.of_nat n + z) 0); [lia|eauto].
    - destruct (Z.ltb_spec z (Z.of_nat n)); [eauto|lia]. }
  destruct E as (k & ->). apply IH. intros w Hw. apply H. right. exact Hw.
Qed.
Lemma mask_of_ok n pfix : (forall l, pfix = Some l -> l <> [] /\ forall z, In z l -> (- Z.of_nat n <= z < Z.of_nat n)%Z) -> exists m, mask_of n pfix = Ok m.
Proof.
  intros H. unfold mask_of. destruct pfix as [[|z l]|]; [destruct (H [] eq_refl); contradiction| |eauto].
  destruct (H _ eq_refl) as [_ Hz]. apply (clear_idx_ok n (z :: l)). exact Hz.
Qed.

(* the loop of a run with conformable arguments; Sing tells whether a singular matrix
   is possible *)
Lemma lm_core (Sing : Prop) f solve inv fo fi cfg data p0 kw :
  lm_args_ok data p0 kw -> lm_fun_ok f cfg data p0 kw -> 0 < c_gain cfg -> 0 <= c_lambda0 cfg ->
  (forall mask pmin pmax prel pabs errs a lam b, mask_of (length p0) (k_pfix kw) = Ok mask -> errs_of data kw = Ok errs -> shp errs = shp data ->
     normal_of f (wgt_of errs) p0 mask pmin pmax prel pabs (npts data) a -> 0 <= lam -> length b = nfree mask ->
     (exists x, solve (damped a lam) b = Ok x /\ length x = nfree mask) \/ (Sing /\ solve (damped a lam) b = Err LinAlgError)) ->
  exists mask pmin pmax prel pabs errs r tr,
    mask_of (length p0) (k_pfix kw) = Ok mask /\ length mask = length p0 /\ (0 < nfree mask)%nat /\
    errs_of data kw = Ok errs /\ shp errs = shp data /\
    levmar_run f solve inv fo fi cfg data p0 kw [] = lm_finish f inv data p0 mask (r, tr) /\
    match r with
    | Ok r' => forall o, r' = Some o -> normal_of f (wgt_of errs) p0 mask pmin pmax prel pabs (npts data) (o_alpha o)
    | Err e => e = LevmarError \/ (Sing /\ e = LinAlgError)
    end.
Proof.
  intros (A1 & A2 & A3 & A4 & A5 & A6 & i0 & Hi0 & Hfree) Hfn Hgain Hlam0 Hso.
  destruct (bc_opt_ok _ _ A3) as (pmin & E1 & N1). destruct (bc_opt_ok _ _ A4) as (pmax & E2 & N2).
  assert (E3 : exists prel, bc_list (length p0) (match k_prel kw with Some l => l | None => [c_prel cfg] end) = Ok prel).
  { apply bc_list_ok. destruct (k_prel kw) as [l|]; [apply A5; reflexivity|right; reflexivity]. }
  destruct E3 as (prel & E3).
  assert (E4 : exists pabs, bc_list (length p0) (match k_pabs kw with Some l => l | None => [c_pabs cfg] end) = Ok pabs).
  { apply bc_list_ok. destruct (k_pabs kw) as [l|]; [apply A6; reflexivity|right; reflexivity]. }
  destruct E4 as (pabs & E4).
  destruct (mask_of_ok _ _ A2) as (mask & Em).
  destruct (mask_of_spec _ _ _ Em) as [Lm _].
  assert (E0 : exists errs, errs_of data kw = Ok errs /\ shp errs = shp data).
  { unfold errs_of. destruct (k_errs kw) as [e|]; [|eauto]. unfold nd_map2. cbn [shp full].
    rewrite bshape_comm, (bshape_of_bto _ _ (A1 e eq_refl)). eauto. }
  destruct E0 as (errs & E0 & Serr).
  assert (Lsel : forall (o : option (list R)) (l : list R), bc_opt (length p0) o = Ok (Some l) -> length (sel mask l) = nfree mask).
  { intros o l Hl. apply sel_length. rewrite Lm. symmetry. eapply bc_opt_len; eauto. }
  pose proof (o_outer f solve (nravel data) (wgt_of errs) p0 mask (option_map (sel mask) pmin) (option_map (sel mask) pmax)
     prel pabs cfg (npts data) Lm) as T.
  specialize (T ltac:(intros l Hl; destruct pmin; [injection Hl as <-; eapply Lsel; eauto|discriminate])).
  specialize (T ltac:(intros l Hl; destruct pmax; [injection Hl as <-; eapply Lsel; eauto|discriminate])).
  specialize (T (bc_list_len _ _ _ E3) (bc_list_len _ _ _ E4) eq_refl).
  specialize (T ltac:(unfold wgt_of, nravel, npts; cbn; rewrite Serr; reflexivity)).
  assert (Hnf : (0 < nfree mask)%nat).
  { assert (Q : nth i0 mask false = true).
    { rewrite (nth_indep _ false true) by lia. destruct (nth i0 mask true) eqn:Q; auto. exfalso. apply Hfree.
      apply (mask_fixed _ _ _ _ Em Hi0). exact Q. }
    pose proof (rank_lt _ _ Q). lia. }
  specialize (T Hnf).
  assert (Hf' : match f with
    | LPlain h => (forall k p, length p = length p0 -> exists v, h k p = Ok v /\ shp v = [npts data]) /\
                  (option_map (sel mask) pmin = None \/ option_map (sel mask) pmax = None) /\ (forall i, (i < length p0)%nat -> 0 < nth i pabs 0)
    | LGen h => forall k p, length p = length p0 -> exists v d, h k p = (Ok v, Ok d) /\ shp v = [npts data] /\ shp d = [length p0; npts data]
    end).
  { unfold lm_fun_ok in Hfn. destruct f as [h|h]; [|exact Hfn]. destruct Hfn as (B1 & B2 & B3). split; [exact B1|]. split.
    - destruct B2 as [B2|B2]; [left; rewrite (N1 B2); reflexivity|right; rewrite (N2 B2); reflexivity].
    - intros i Hi. rewrite (bc_list_nth _ _ _ _ 0 E4 Hi). specialize (B3 i Hi). unfold step_abs, bnd in B3. destruct (k_pabs kw); exact B3. }
  specialize (T Hf' Sing Hgain (fun a lam b => Hso mask _ _ _ _ errs a lam b Em E0 Serr) fo fi (sel mask p0) None (c_lambda0 cfg) 0%Z 0%nat ltac:(apply sel_length; auto) Hlam0 [] I).
  pose proof (levmar_setup f solve inv fo fi cfg data p0 kw errs pmin pmax prel pabs mask E0 Em E1 E2 E3 E4) as RUN.
  destruct (lm_outer f solve _ _ _ _ _ _ _ _ _ _ _ _ _ _ _ _ []) as [r tr].
  exists mask, (option_map (sel mask) pmin), (option_map (sel mask) pmax), prel, pabs, errs, r, tr. repeat (split; [auto|]).
  destruct r as [r|e]; [|exact T]. apply T.
Qed.

(* C68, outcome: with conformable arguments levmar returns or raises LevmarError or the
   LinAlgError of a singular matrix. *)
Theorem C68_outcome_partial f solve inv fo fi cfg data p0 kw L :
  1 < c_gain cfg -> 0 < c_lambda0 cfg -> c_lambdax cfg < c_lambda0 cfg * c_gain cfg ^ L ->
  (passes cfg <= fo)%nat -> (L + passes cfg <= fi)%nat ->
  lm_args_ok data p0 kw -> lm_fun_ok f cfg data p0 kw -> linalg_raises solve inv ->
  let out := levmar_run f solve inv fo fi cfg data p0 kw [] in
  (exists m, fst out = Ok (Some m)) \/ fst out = Err LevmarError \/ fst out = Err LinAlgError.
Proof.
  intros Hg H0 HL Hfo Hfi Ha Hfn [Hso Hin] out.
  destruct (C68_terminates f solve inv fo fi cfg data p0 kw L Hg H0 HL Hfo Hfi) as [Hnn _]. fold out in Hnn.
  destruct (lm_core True f solve inv fo fi cfg data p0 kw Ha Hfn ltac:(lra) ltac:(lra)) as (mask & pmin & pmax & prel & pabs & errs & r & tr & Em & Lm & Hnf & E0 & Serr & RUN & T).
  { intros mask pmin pmax prel pabs errs a lam b _ _ _ (N1 & N2 & _) _ Lb.
    destruct (Hso (nfree mask) (damped a lam) b N1 N2 Lb) as [|]; auto. }
  unfold out in *. clear out. rewrite RUN in *.
  destruct r as [[o|]|e]; cbn [lm_finish fst] in *.
  - destruct (T o eq_refl) as (T1 & T2 & _).
    destruct (Hin (nfree mask) (o_alpha o) T1 T2) as [(c & -> & C1 & C2)| ->]; [|auto].
    unfold spread. fold (nfree mask). rewrite C1, C2, Nat.eqb_refl. cbn. eauto.
  - contradiction Hnn. reflexivity.
  - destruct T as [-> |[_ ->]]; auto.
Qed.
Lemma linalg_ok_raises solve inv : solve_ok solve -> inv_ok inv -> linalg_raises solve inv.
Proof.
  intros Hs Hi. split.
  - intros n a b H1 H2 H3. destruct (Hs n a b H1 H2 H3) as [A B]. destruct (classic (nonsing n (at2 a))) as [HN|HN]; [|auto].
    destruct (A HN) as (x & Hx & Lx & _). left. eauto.
  - intros n a H1 H2. destruct (Hi n a H1 H2) as [A B]. destruct (classic (nonsing n (at2 a))) as [HN|HN]; [|auto].
    destruct (A HN) as (c & Hc & C1 & C2 & _). left. eauto.
Qed.

(* the partial derivatives of the free parameters are linearly independent everywhere *)
Definition full_rank (h : nat -> list R -> res (nd R) * res (nd R)) (data : nd R) (p0 : list R) (kw : @lmkw R) : Prop :=
  forall k p v d, length p = length p0 -> h k p = (Ok v, Ok d) ->
  forall c : nat -> R, (forall i, (i < length p0)%nat -> fixed_par (length p0) (k_pfix kw) i -> c i = 0) ->
  (forall t, (t < npts data)%nat -> rsum (length p0) (fun i => c i * get d [i; t]) = 0) ->
  forall i, (i < length p0)%nat -> c i = 0.

Lemma wgt_pos data kw errs : lerrs_ok data kw -> errs_of data kw = Ok errs -> forall t, (t < npts data)%nat ->
  get (wgt_of errs) [t] = / (leps data kw t) ^ 2 /\ 0 < get (wgt_of errs) [t].
Proof.
  intros H E t Ht. destruct (lerrs_run _ _ H) as (errs' & E' & Hs & He). rewrite E in E'. injection E' as <-.
  destruct (He t Ht) as [E1 E2]. unfold wgt_of, nravel, nd_map. cbn [get hd]. rewrite Hs, E1. numR.
  assert (P : 0 < leps data kw t * leps data kw t) by (destruct (Rtotal_order (leps data kw t) 0) as [|[|]]; [nra|contradiction|nra]).
  split; [field; exact E2|]. unfold Rdiv. rewrite Rmult_1_l. apply Rinv_0_lt_compat, P.
Qed.
(* rows of the derivative matrix of the free parameters *)
Lemma gen_jac h p0 mask pmin pmax prel pabs q tr0 f0 d tr1 n : length mask = n ->
  g_both (LGen h) p0 mask pmin pmax prel pabs q tr0 = (Ok (f0, d), tr1) ->
  exists D, h (length tr0) (put mask p0 q) = (Ok f0, Ok D) /\
    forall i k, get d [i; k] = get D [nth i (sel mask (seq 0 n)) 0%nat; k].
Proof.
  intros Lm H. unfold g_both, sbind, call_gen, slift in H.
  destruct (h (length tr0) (put mask p0 q)) as [r1 r2]. cbn [fst snd] in H.
  destruct r1 as [v|]; [|discriminate]. destruct r2 as [D|]; [|discriminate].
  unfold sel_rows in H. destruct (shp D) as [|x s]; [discriminate|]. destruct (Nat.eqb_spec x (length mask)); [|discriminate].
  cbn in H. injection H as <- <- _. exists D. split; [reflexivity|]. intros i k. cbn [get hd tl]. subst n. rewrite e. reflexivity.
Qed.
Lemma fidx_spec mask n i : length mask = n -> (i < nfree mask)%nat ->
  let j := nth i (sel mask (seq 0 n)) 0%nat in (j < n)%nat /\ nth j mask false = true /\ rank_of mask j = i.
Proof.
  intros Lm Hi j. destruct (rank_onto mask i Hi) as (m & Hm & Hr).
  assert (Lj : (m < n)%nat).
  { destruct (Nat.lt_ge_cases m n); auto. rewrite nth_overflow in Hm by lia. discriminate. }
  assert (E : j = m). { unfold j. rewrite <- Hr. rewrite sel_nth by exact Hm. rewrite seq_nth by auto. reflexivity. }
  rewrite E. auto.
Qed.
Lemma jac_independent h data p0 kw mask pmin pmax prel pabs q tr0 f0 d tr1 :
  full_rank h data p0 kw -> mask_of (length p0) (k_pfix kw) = Ok mask ->
  g_both (LGen h) p0 mask pmin pmax prel pabs q tr0 = (Ok (f0, d), tr1) ->
  forall v : nat -> R, (forall k, (k < npts data)%nat -> rsum (nfree mask) (fun i => v i * get d [i; k]) = 0) ->
  forall i, (i < nfree mask)%nat -> v i = 0.
Proof.
  intros HF Em G v Hv i Hi. destruct (mask_of_spec _ _ _ Em) as [Lm _].
  destruct (gen_jac _ _ _ _ _ _ _ _ _ _ _ _ (length p0) Lm G) as (D & HD & Hd).
  set (c := fun m => if nth m mask false then v (rank_of mask m) else 0).
  destruct (fidx_spec mask (length p0) i Lm Hi) as (J1 & J2 & J3). set (j := nth i (sel mask (seq 0 (length p0))) 0%nat) in *.
  assert (E : c j = 0).
  { apply (HF _ _ _ _ (put_length _ _ _) HD c); auto.
    - intros m Hm Hfx. apply (mask_fixed _ _ _ _ Em Hm) in Hfx. unfold c. rewrite (nth_indep _ false true) by lia. rewrite Hfx. reflexivity.
    - intros t Ht. rewrite <- (Hv t Ht).
      rewrite (rsum_ext _ _ (fun m => if nth m mask false then v (rank_of mask m) * get D [m; t] else 0)).
      + rewrite <- Lm. rewrite (sum_free (fun i m => v i * get D [m; t])). rewrite Lm. apply rsum_ext. intros l Hl. rewrite Hd. reflexivity.
      + intros m Hm. unfold c. destruct (nth m mask false); ring. }
  unfold c in E. rewrite J2, J3 in E. exact E.
Qed.

(* C68, outcome as stated, for generator functions with independent derivatives: levmar
   returns or raises LevmarError, after a bounded number of calls (C68_terminates) *)
Theorem C68_outcome h solve inv fo fi cfg data p0 kw L :
  1 < c_gain cfg -> 0 < c_lambda0 cfg -> c_lambdax cfg < c_lambda0 cfg * c_gain cfg ^ L ->
  (passes cfg <= fo)%nat -> (L + passes cfg <= fi)%nat ->
  lm_args_ok data p0 kw -> lerrs_ok data kw -> lm_fun_ok (LGen h) cfg data p0 kw -> full_rank h data p0 kw ->
  solve_ok solve -> inv_ok inv ->
  let out := levmar_run (LGen h) solve inv fo fi cfg data p0 kw [] in
  (exists m, fst out = Ok (Some m)) \/ fst out = Err LevmarError.
Proof.
  intros Hg H0 HL Hfo Hfi Ha Herr Hfn HF Hso Hin out.
  destruct (C68_terminates (LGen h) solve inv fo fi cfg data p0 kw L Hg H0 HL Hfo Hfi) as [Hnn _]. fold out in Hnn.
  assert (NS : forall mask pmin pmax prel pabs errs a lam, mask_of (length p0) (k_pfix kw) = Ok mask -> errs_of data kw = Ok errs ->
     normal_of (LGen h) (wgt_of errs) p0 mask pmin pmax prel pabs (npts data) a -> 0 <= lam -> nonsing (nfree mask) (at2 (damped a lam))).
  { intros mask pmin pmax prel pabs errs a lam Em Ee (N1 & N2 & q & f0 & d & tr0 & tr1 & Lq & G & Sd & Ea) Hl v Hv.
    apply (damped_nonsing (nfree mask) (npts data) (fun k => get (wgt_of errs) [k]) (fun i k => get d [i; k]) (at2 a) lam); auto.
    - intros k Hk. apply (wgt_pos data kw errs Herr Ee k Hk).
    - intros v' Hv'. apply (jac_independent _ _ _ _ _ _ _ _ _ _ _ _ _ _ HF Em G v' Hv'). }
  destruct (lm_core False (LGen h) solve inv fo fi cfg data p0 kw Ha Hfn ltac:(lra) ltac:(lra)) as (mask & pmin & pmax & prel & pabs & errs & r & tr & Em & Lm & Hnf & E0 & Serr & RUN & T).
  { intros mask pmin pmax prel pabs errs a lam b Em Ee _ NA Hl Lb. left. pose proof NA as (N1 & N2 & _).
    destruct (Hso (nfree mask) (damped a lam) b N1 N2 Lb) as [A _].
    destruct (A (NS _ _ _ _ _ _ _ _ Em Ee NA Hl)) as (x & Hx & Lx & _). eauto. }
  unfold out in *. clear out. rewrite RUN in *.
  destruct r as [[o|]|e]; cbn [lm_finish fst] in *.
  - pose proof (T o eq_refl) as NA. pose proof NA as (T1 & T2 & _).
    destruct (Hin (nfree mask) (o_alpha o) T1 T2) as [A _].
    assert (NS0 : nonsing (nfree mask) (at2 (o_alpha o))).
    { pose proof (NS _ _ _ _ _ _ _ 0 Em E0 NA (Rle_refl 0)) as N0. intros v Hv. apply N0. intros i Hi. refine (eq_trans _ (Hv i Hi)).
      apply rsum_ext. intros j Hj. cbn. numR. destruct (i =? j)%nat; ring. }
    destruct (A NS0) as (c & -> & C1 & C2 & _).
    unfold spread. fold (nfree mask). rewrite C1, C2, Nat.eqb_refl. cbn. eauto.
  - contradiction Hnn. reflexivity.
  - destruct T as [-> |[[] _]]; auto.
Qed.

(* without independence a LinAlgError is possible: f(p) = (p^2, p^2) started at 0 *)
Definition sing_f (p : list R) : nd R := let x := nth 0 p 0 in vec 0 [x * x; x * x].
Definition sing_df (p : list R) : nd R := let x := nth 0 p 0 in Nd [1; 2]%nat (fun _ => 2 * x).
Theorem C68_refuted solve inv fo fi : solve_ok solve ->
  fst (levmar_run (LGen (fun _ p => (Ok (sing_f p), Ok (sing_df p)))) solve inv (S fo) (S fi) lm_default (vec 0 [1; 1]) [0] no_kw []) = Err LinAlgError.
Proof.
  intros Hs. cbv -[Rplus Rmult Ropp Rinv Rminus Rdiv IZR Reqb Rltb Rleb lm_inner]. rewrite Reqb_false by lra.
  revalc.
  match goal with |- context [solve ?m ?b] => assert (E : solve m b = Err LinAlgError);
    [destruct (Hs 1%nat m b eq_refl eq_refl eq_refl) as [_ B]|rewrite E; reflexivity] end.
  apply B. intros HN. assert (Q : 1 = 0); [|lra].
  refine (HN (fun _ => 1) _ 0%nat Nat.lt_0_1). intros i Hi. cbn. numR. destruct i as [|i]; [|lia]. cbn. lra.
Qed.

(* ---- C69: too few data points ---- *)
(* C69 as stated fails: one datum, one parameter, and the exact solution as start *)
Theorem C69_refuted solve inv : inv_ok inv ->
  exists m, fst (levmar_run (LGen (fun _ p => (Ok (vec 0 p), Ok (Nd [1; 1]%nat (fun _ => 1))))) solve inv 1 1 lm_default
                            (vec 0 [1]) [1] no_kw []) = Ok (Some m) /\ l_p m = [1] /\ l_ndof m = 0%Z.
Proof.
  intros Hi. revalc. rewrite Reqb_true by lra. revalc.
  match goal with |- context [inv ?a] => destruct (inv_ok1 inv a Hi eq_refl eq_refl) as (c & -> & C1 & C2 & C3); [cbn; lra|] end.
  destruct c as [cr cc cg]. cbn in C1, C2. subst cr cc. revalc. eexists. split; [reflexivity|]. split; reflexivity.
Qed.

Lemma wide_singular n N (w : nat -> R) (d : nat -> nat -> R) (a : nat -> nat -> R) : (N < n)%nat ->
  (forall i j, (i < n)%nat -> (j < n)%nat -> a i j = rsum N (fun k => w k * d i k * d j k)) -> ~ nonsing n a.
Proof.
  intros HN Ha NS. set (M := fun i j => if (i <? N)%nat then d j i else 0).
  assert (NM : nonsing n M).
  { intros v Hv. apply NS. intros i Hi.
    rewrite (rsum_ext n _ (fun j => rsum N (fun k => w k * d i k * (d j k * v j)))).
    - rewrite rsum_swap. apply rsum_zero. intros k Hk. rewrite rsum_scal. specialize (Hv k ltac:(lia)).
      unfold M in Hv. destruct (Nat.ltb_spec k N); [|lia]. rewrite Hv. ring.
    - intros j Hj. rewrite Ha by auto. rewrite <- rsum_scal_r. apply rsum_ext. intros. ring. }
  destruct (gsolve_complete n M (Arr2 n 1 (fun i _ => if (i =? N)%nat then 1 else 0)) NM) as (x & Hx).
  destruct (gsolve_sound n M (Arr2 n 1 (fun i _ => if (i =? N)%nat then 1 else 0)) x eq_refl Hx) as (_ & _ & S). specialize (S N 0%nat HN Nat.lt_0_1). cbn in S.
  rewrite Nat.eqb_refl in S. rewrite rsum_zero in S; [lra|]. intros j Hj. unfold M. destruct (Nat.ltb_spec N N); [lia|ring].
Qed.

(* C69, what holds: with fewer data points than free parameters levmar does not return
   (the normal matrix is singular, so it raises LinAlgError or LevmarError) *)
Theorem C69_partial f solve inv fo fi cfg data p0 kw frees :
  lm_args_ok data p0 kw -> lm_fun_ok f cfg data p0 kw -> 0 < c_gain cfg -> 0 <= c_lambda0 cfg -> solve_ok solve -> inv_ok inv ->
  NoDup frees -> (forall i, In i frees -> (i < length p0)%nat /\ ~ fixed_par (length p0) (k_pfix kw) i) -> (npts data < length frees)%nat ->
  forall m, fst (levmar_run f solve inv fo fi cfg data p0 kw []) <> Ok (Some m).
Proof.
  intros Ha Hfn Hg H0 Hso Hin ND HF Hlt m Hm.
  destruct (linalg_ok_raises _ _ Hso Hin) as [Hs1 _].
  destruct (lm_core True f solve inv fo fi cfg data p0 kw Ha Hfn Hg H0) as (mask & pmin & pmax & prel & pabs & errs & r & tr & Em & Lm & Hnf & E0 & Serr & RUN & T).
  { intros mask pmin pmax prel pabs errs a lam b _ _ _ (N1 & N2 & _) _ Lb.
    destruct (Hs1 (nfree mask) (damped a lam) b N1 N2 Lb) as [|]; auto. }
  rewrite RUN in Hm. destruct r as [[o|]|e]; cbn [lm_finish fst] in Hm; try discriminate.
  destruct (T o eq_refl) as (T1 & T2 & q & f0 & d & tr0 & tr1 & Lq & G & Sd & Ea).
  assert (HNF : (length frees <= nfree mask)%nat).
  { rewrite <- (seq_length (nfree mask) 0), <- (map_length (rank_of mask) frees).
    assert (FR : forall i, In i frees -> nth i mask false = true).
    { intros i Hi. destruct (HF i Hi) as [Li Hf']. rewrite (nth_indep _ false true) by lia. destruct (nth i mask true) eqn:Q; auto.
      exfalso. apply Hf'. apply (mask_fixed _ _ _ _ Em Li). exact Q. }
    apply NoDup_incl_length.
    - clear - ND FR. induction frees as [|x l IH]; [constructor|]. inversion_clear ND as [|? ? N1 N2]. constructor.
      + intros Hx. apply in_map_iff in Hx as (y & Hy & Hyl). apply N1. rewrite <- (rank_inj mask y x); auto; apply FR; cbn; auto.
      + apply IH; auto. intros i Hi. apply FR. right. exact Hi.
    - intros z Hz. apply in_map_iff in Hz as (y & <- & Hy). apply in_seq. pose proof (rank_lt mask y (FR y Hy)). lia. }
  assert (NS : ~ nonsing (nfree mask) (at2 (o_alpha o))).
  { apply (wide_singular (nfree mask) (npts data) (fun k => get (wgt_of errs) [k]) (fun i k => get d [i; k])); [lia|exact Ea]. }
  destruct (Hin (nfree mask) (o_alpha o) T1 T2) as [_ B]. rewrite (B NS) in Hm. discriminate.
Qed.
(* cases for the hypotheses: RunLevmar.v and the end of PropsLevmar3.v *)
Print Assumptions C65_fixed.
Print Assumptions C66_bounds.
Print Assumptions C67_partial.
Print Assumptions C67_refuted.
Print Assumptions C68_terminates.
Print Assumptions C68_outcome.
Print Assumptions C68_refuted.
Print Assumptions C69_partial.
Print Assumptions C69_refuted.
